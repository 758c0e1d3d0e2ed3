(** Theorems C103 to C107: meshes exchanged with tetgen. *)
From Verif Require Import Base Containers Mesh Flood Edit Order Tetgen SpecMesh SpecOrder SpecTetgen ContainersProofs MeshProofs FloodProofs CloseProofs TetgenProofs TetgenMesh TetgenWrite TetgenOther.
Import Mesh.
Set Implicit Arguments.
Open Scope Z_scope.

(** ** C103 *)
Lemma pieces_of REAL (t : tetout REAL) cs : (numberofpoints t * 3 <= length (pointlist t))%nat ->
  map (map Some) cs = map (point_of t) (upto (numberofpoints t) 0) -> pieces 3 (pointlist t) (numberofpoints t) cs.
Proof.
  intros H E. assert (Lc : length cs = numberofpoints t).
  { rewrite <- (map_length (map Some) cs), E, map_length. apply upto_length. }
  split; auto. intros i c Hc.
  assert (i < numberofpoints t)%nat by (rewrite <- Lc; apply nth_error_Some; congruence).
  assert (Q : nth_error (map (map Some) cs) i = Some (map Some c)) by (rewrite nth_error_map, Hc; reflexivity).
  rewrite E, nth_error_map, upto_nth in Q by auto. injection Q as Q. unfold point_of in Q. cbn [map upto] in Q.
  split; [rewrite <- (map_length Some c), <- Q; reflexivity|].
  intros j Hj. assert (K : nth_error (map Some c) j = Some (nth_error (pointlist t) (i * 3 + j))).
  { rewrite <- Q. destruct j as [|[|[|j]]]; [| | |lia]; cbn [nth_error]; do 2 f_equal; lia. }
  rewrite nth_error_map in K. destruct (nth_error c j); [injection K as K; exact K|discriminate].
Qed.
Theorem C103_mesh : forall REAL (t : tetout REAL) t2f, legal t t2f ->
  exists m cs, tet2mesh t = Ok (m, cs) /\ well_connected m /\ connected_as t t2f m /\ pieces 3 (pointlist t) (numberofpoints t) cs.
Proof.
  intros REAL t t2f L. destruct (tet2mesh_built L) as [cs [E P]]. exists (built t t2f), cs. split; auto. split; [apply built_well; auto|].
  split; [|apply pieces_of; auto; apply L].
  destruct (built_numbered L) as [N1 [N2 [N3 N4]]]. split; [exact N1|]. split; [exact N2|]. split; [exact N3|]. split; [exact N4|].
  split; [|split; [|split]].
  - intros e He. cbn [edges built] in He. apply in_map_iff in He. destruct He as [i [<- Hi]]. apply upto_In in Hi. cbn [ed_vertind ed_index].
    unfold toA. rewrite row_pairs by lia. cbn [map fst snd].
    destruct L as [F [_ [_ [T1 _]]]]. destruct T1 as [T1 _]. replace (i + 1 - 1) with i by lia. rewrite Z.add_0_r.
    destruct (@at_in _ (edgelist t) (i * 2)) as [a [Na _]]; [lia|]. destruct (@at_in _ (edgelist t) (i * 2 + 1)) as [b [Nb _]]; [lia|].
    eexists _, _. split; [reflexivity|]. rewrite (nth_error_nth _ _ _ Na), (nth_error_nth _ _ _ Nb), Na, Nb.
    assert (I : incr (firstnumber t) = 1 - firstnumber t) by (destruct F as [-> | ->]; reflexivity). rewrite I. split; f_equal; lia.
  - intros s e. apply built_SE; auto.
  - intros w s. apply built_VS; auto.
  - intros s. rewrite built_SV by auto. split; [|intros [H1 H2]; auto].
    intros [H1 [[H2 _]|[_ H2]]]; [lia|auto].
Qed.
Print Assumptions C103_mesh.
(** Without the table of the faces of the tetrahedra there is no mesh. *)
Theorem C103_no_faces : forall REAL (t : tetout REAL), tet2facelist t = None -> tet2mesh t = Throw.
Proof. intros REAL t H. unfold tet2mesh. rewrite H. reflexivity. Qed.
Print Assumptions C103_no_faces.

(** Two tetrahedra with a common face. *)
Definition ex_tet2face : list Z := [0;1;2;3; 3;4;5;6].
Definition ex_tet : tetout Z := mkTetout 0 5 9 7 2 4 [0;0;0; 1;0;0; 0;1;0; 0;0;1; 1;1;1]
  [0;1; 0;2; 0;3; 1;2; 1;3; 2;3; 1;4; 2;4; 3;4] [0;1;2; 0;1;3; 0;2;3; 1;2;3; 1;2;4; 1;3;4; 2;3;4] [1;1;1;0;-1;-1;1]
  [0;3;1; 0;4;2; 1;5;2; 3;5;4; 3;7;6; 4;8;6; 5;8;7] [0;1;2;3; 1;2;3;4] (Some ex_tet2face).
Definition tableb (first : Z) (l : list Z) (count n max : nat) : bool :=
  (count * n <=? length l)%nat && forallb (fun x => (first <=? x) && (x <? first + Z.of_nat max)) l.
Lemma tableb_ok first l count n max : tableb first l count n max = true -> table first l count n max.
Proof.
  unfold tableb. rewrite andb_true_iff, Nat.leb_le, forallb_forall. intros [H1 H2]. split; auto.
  intros p x _ Hx. apply nth_error_In in Hx. apply H2 in Hx. rewrite andb_true_iff, Z.leb_le, Z.ltb_lt in Hx. exact Hx.
Qed.
Example C103_hyps : legal ex_tet ex_tet2face.
Proof. split; [left; reflexivity|]. split; [reflexivity|]. split; [simpl; lia|]. split; [|split]; apply tableb_ok; reflexivity. Qed.
Definition ex_mesh : mesh := built ex_tet ex_tet2face.
Example C103_case : exists cs, tet2mesh ex_tet = Ok (ex_mesh, cs) /\ SV ex_mesh 4 1 /\ SV ex_mesh 4 2 /\ ~ SV ex_mesh 4 0 /\ SV ex_mesh 1 0.
Proof.
  eexists. split; [vm_compute; reflexivity|].
  assert (E : forall k v, SV ex_mesh k v <-> exists s, In s (surfs ex_mesh) /\ su_index s = k /\ In v (su_voluind s)) by reflexivity.
  rewrite !E. vm_compute. split; [|split; [|split]].
  - eexists. split; [do 3 right; left; reflexivity|]. simpl. auto.
  - eexists. split; [do 3 right; left; reflexivity|]. simpl. auto.
  - intros [s [H1 [H2 H3]]]. repeat (destruct H1 as [<-|H1]; [simpl in *; try discriminate; intuition discriminate|]). exact H1.
  - eexists. split; [left; reflexivity|]. simpl. auto.
Qed.

(** ** C104 *)
Theorem C104_input : forall REAL (zero minus1 : REAL) geom domain cg cd,
  well_connected geom -> well_connected domain -> outlined geom -> outlined domain -> with_coords geom cg -> with_coords domain cd ->
  let ng := length (verts geom) in let nd := length (verts domain) in
  exists s fg fd, mesh2tetgen zero minus1 geom domain cg cd = Ok s /\
    in_npoints s = Z.of_nat (ng + nd) /\ in_nfacets s = Z.of_nat (length (surfs geom) + length (surfs domain)) /\
    in_points s = map Some (concat cg ++ concat cd) /\
    in_pmarkers s = map Some (repeat 1 ng ++ repeat (-1) nd) /\
    in_nmtrs s = 1 /\ in_mtrs s = map Some (repeat zero ng ++ repeat minus1 nd) /\
    in_facets s = map Some (fg ++ fd) /\ Forall2 (facet_of geom 0) (surfs geom) fg /\ Forall2 (facet_of domain ng) (surfs domain) fd /\
    in_fmarkers s = map Some (repeat 1 (length (surfs geom)) ++ repeat 2 (length (surfs domain))) /\
    in_constraints s = [Some (inl 1); Some (inr zero); Some (inl 2); Some (inr zero)].
Proof.
  intros REAL zero minus1 geom domain cg cd W1 W2 O1 O2 C1 C2 ng nd.
  destruct (@mesh2tetgen_ok REAL zero minus1 geom domain cg cd W1 W2 O1 O2 C1 C2) as [fg [fd [F1 [F2 E]]]].
  eexists _, fg, fd. split; [exact E|]. cbn [in_npoints in_nfacets in_points in_pmarkers in_nmtrs in_mtrs in_facets in_fmarkers in_constraints].
  rewrite concat_app. repeat (split; [auto|]); auto.
Qed.
Print Assumptions C104_input.

Definition joinsb (m : mesh) (e a b : Z) : bool :=
  existsb (fun x => (ed_index x =? e) && match ed_vertind x with [p; q] => ((p =? a) && (q =? b)) || ((p =? b) && (q =? a)) | _ => false end) (edges m).
Lemma joinsb_ok m e a b : joinsb m e a b = true -> edge_joins m e a b.
Proof.
  unfold joinsb. rewrite existsb_exists. intros [x [Hx H]]. rewrite andb_true_iff, Z.eqb_eq in H. destruct H as [H1 H2].
  destruct (ed_vertind x) as [|p [|q [|]]] eqn:E; try discriminate. rewrite orb_true_iff, !andb_true_iff, !Z.eqb_eq in H2.
  destruct H2 as [[-> ->]|[-> ->]]; [left|right]; exists x; auto.
Qed.
Definition triangleb (m : mesh) (s : surf) : bool :=
  match su_edgeind s with
  | [e; f; g] => existsb (fun a => existsb (fun b => existsb (fun c =>
      joinsb m e a b && joinsb m f b c && joinsb m g c a && negb (a =? b) && negb (b =? c) && negb (a =? c)) (map ve_index (verts m))) (map ve_index (verts m))) (map ve_index (verts m))
  | _ => false
  end.
Lemma triangles_outlined m : forallb (triangleb m) (surfs m) = true -> outlined m.
Proof.
  rewrite forallb_forall. intros H s Hs. apply H in Hs. unfold triangleb in Hs. destruct (su_edgeind s) as [|e [|f [|g [|]]]]; try discriminate.
  apply existsb_exists in Hs. destruct Hs as [a [_ Hs]]. apply existsb_exists in Hs. destruct Hs as [b [_ Hs]]. apply existsb_exists in Hs. destruct Hs as [c [_ Hs]].
  rewrite !andb_true_iff, !negb_true_iff, !Z.eqb_neq in Hs. destruct Hs as [[[[[J1 J2] J3] N1] N2] N3].
  split; [simpl; lia|]. exists [a; b; c]. split.
  - repeat constructor; simpl; intuition congruence.
  - split; [reflexivity|]. intros [|[|[|i]]] x y z E1 E2 E3; simpl in *; try (destruct i; discriminate); injection E1 as <-; injection E2 as <-; injection E3 as <-; apply joinsb_ok; auto.
Qed.
Example C104_hyps : well_connected ex_mesh /\ outlined ex_mesh /\ with_coords ex_mesh [[0;0;0]; [1;0;0]; [0;1;0]; [0;0;1]; [1;1;1]].
Proof.
  split; [apply built_well, C103_hyps|]. split; [apply triangles_outlined; vm_compute; reflexivity|]. split; [reflexivity|].
  intros p H. simpl in H. intuition subst; reflexivity.
Qed.

(** ** C105 *)
Theorem C105_written : forall REAL (s : tetin REAL) start num mtrs, whole s -> 0 <= start -> 0 <= num -> start + num <= in_npoints s ->
  exists s', point_metric start num mtrs s = Ok s' /\ same_but_metrics s s' /\ length (in_mtrs s') = length (in_mtrs s) /\
    forall p j, Z.of_nat j < in_nmtrs s -> metric s' p j =
      if ((start <=? Z.of_nat p) && (Z.of_nat p <? start + num) && (j <? length mtrs)%nat)%bool then Some (nth_error mtrs j) else metric s p j.
Proof. exact metric_written. Qed.
Print Assumptions C105_written.
Theorem C105_range : forall REAL (s : tetin REAL) start num mtrs, in_npoints s < start + num \/ start < 0 -> point_metric start num mtrs s = Throw.
Proof. exact metric_throws. Qed.
Print Assumptions C105_range.
(** The lengths given as one number for each point are not written as such: all points get
    the first. *)
Theorem C105_each_refuted : exists (s s' : tetin Z) lengths, whole s /\ in_nmtrs s = 1 /\ Z.of_nat (length lengths) = in_npoints s /\
  point_metric 0 (in_npoints s) lengths s = Ok s' /\ exists p, (p < length lengths)%nat /\ metric s' p 0 <> Some (nth_error lengths p).
Proof.
  exists (allocated 2 0 1 0), (mkTetin 2 0 1 (repeat None 6) [Some 5; Some 5] [None; None] [] [] []), [5; 7].
  split; [repeat split; simpl; lia|]. split; [reflexivity|]. split; [reflexivity|]. split; [reflexivity|]. exists 1%nat. split; [simpl; lia|]. discriminate.
Qed.
Print Assumptions C105_each_refuted.
(** RSVSGRIDS with a boundary mesh that has points always throws; without one, every point
    gets the length of the first. *)
Lemma whole_input REAL (zero minus1 : REAL) bound domain cb cd :
  well_connected bound -> well_connected domain -> outlined bound -> outlined domain -> with_coords bound cb -> with_coords domain cd ->
  exists s, mesh2tetgen zero minus1 bound domain cb cd = Ok s /\ whole s /\ in_nmtrs s = 1 /\ in_npoints s = Z.of_nat (length (verts bound) + length (verts domain)).
Proof.
  intros W1 W2 O1 O2 C1 C2. destruct (@C104_input REAL zero minus1 bound domain cb cd W1 W2 O1 O2 C1 C2) as [s [fg [fd [E [N1 [_ [_ [_ [N2 [N3 _]]]]]]]]]].
  exists s. split; auto. split; [|auto]. unfold whole. rewrite N1, N2, N3, map_length, app_length, !repeat_length. lia.
Qed.
Theorem C105_grids_throw : forall REAL (zero minus1 : REAL) domain bound cd cb ld lb,
  well_connected bound -> well_connected domain -> outlined bound -> outlined domain -> with_coords bound cb -> with_coords domain cd ->
  length ld = length (verts domain) -> verts bound <> [] -> rsvs_grids zero minus1 domain bound cd cb ld lb = Throw.
Proof.
  intros REAL zero minus1 domain bound cd cb ld lb W1 W2 O1 O2 C1 C2 Hl N.
  destruct (@whole_input REAL zero minus1 bound domain cb cd W1 W2 O1 O2 C1 C2) as [s [E [W [H1 H2]]]].
  unfold rsvs_grids. rewrite E. cbn [bind].
  destruct (@metric_written REAL s 0 (Z.of_nat (length (verts bound))) lb W) as [s' [E' [S' _]]]; [lia|lia|lia|]. rewrite E'. cbn [bind].
  apply metric_throws. left. destruct S' as [S' _]. rewrite S', H2, Hl. assert (0 < length (verts bound))%nat by (destruct (verts bound); [contradiction|simpl; lia]). lia.
Qed.
Print Assumptions C105_grids_throw.
Theorem C105_grids_first : forall REAL (zero minus1 : REAL) domain bound cd cb x r lb,
  well_connected bound -> well_connected domain -> outlined bound -> outlined domain -> with_coords bound cb -> with_coords domain cd ->
  length (x :: r) = length (verts domain) -> verts bound = [] ->
  exists s, rsvs_grids zero minus1 domain bound cd cb (x :: r) lb = Ok s /\ in_npoints s = Z.of_nat (length (verts domain)) /\
    forall p, (p < length (verts domain))%nat -> metric s p 0 = Some (Some x).
Proof.
  intros REAL zero minus1 domain bound cd cb x r lb W1 W2 O1 O2 C1 C2 Hl N.
  destruct (@whole_input REAL zero minus1 bound domain cb cd W1 W2 O1 O2 C1 C2) as [s [E [W [H1 H2]]]].
  unfold rsvs_grids. rewrite E. cbn [bind]. rewrite N in *. cbn [length Nat.add] in H2. change (Z.of_nat (length (@nil vert))) with 0.
  destruct (@metric_written REAL s 0 0 lb W) as [s' [E' [S' [L' _]]]]; [lia|lia|lia|]. rewrite E'. cbn [bind].
  destruct S' as [S1 [S2 [S3 S4]]].
  destruct (@metric_written REAL s' 0 (Z.of_nat (length (x :: r))) (x :: r)) as [s2 [E2 [T2 [_ M2]]]]; [unfold whole in *; rewrite S1, S3, L'; exact W|lia|lia|rewrite S1, H2, Hl; lia|].
  exists s2. rewrite Z.add_0_l. split; [exact E2|]. destruct T2 as [T2 _]. split; [rewrite T2, S1, H2; reflexivity|].
  intros p Hp. rewrite M2 by (rewrite S3, H1; simpl; lia).
  destruct (Z.leb_spec 0 (Z.of_nat p)); [|lia]. destruct (Z.ltb_spec (Z.of_nat p) (0 + Z.of_nat (length (x :: r)))); [|rewrite Hl in *; lia]. reflexivity.
Qed.
Print Assumptions C105_grids_first.
(** The markers of a range of facets. *)
Theorem C105_facets : forall REAL (s : tetin REAL) start num marker, 0 <= start -> 0 <= num -> start + num <= in_nfacets s ->
  Z.of_nat (length (in_fmarkers s)) = in_nfacets s ->
  exists ks, facet_metric start num marker s = Ok (mkTetin (in_npoints s) (in_nfacets s) (in_nmtrs s) (in_points s) (in_mtrs s) (in_pmarkers s) (in_facets s) ks (in_constraints s)) /\
    length ks = length (in_fmarkers s) /\
    forall q, nth_error ks q = if ((start <=? Z.of_nat q) && (Z.of_nat q <? start + num))%bool then Some (Some marker) else nth_error (in_fmarkers s) q.
Proof.
  intros REAL s start num marker H1 H2 H3 HL. unfold facet_metric.
  destruct (Z.ltb_spec (in_nfacets s) (start + num)); [lia|]. destruct (Z.ltb_spec start 0); [lia|].
  destruct (@writes Z Z (fun i => i) (fun _ => marker) (fun i l => put l i marker) (upto (Z.to_nat num) start) (in_fmarkers s)) as [ks [E [L [U V]]]].
  - reflexivity.
  - intros w Hw. apply upto_In in Hw. lia.
  - exists ks. rewrite E. split; [reflexivity|]. split; auto. intros q. rewrite map_id in U, V.
    destruct ((start <=? Z.of_nat q) && (Z.of_nat q <? start + num))%bool eqn:B.
    + rewrite andb_true_iff, Z.leb_le, Z.ltb_lt in B. apply V. apply upto_In. lia.
    + apply U. intros Q. apply upto_In in Q. apply not_true_iff_false in B. apply B. rewrite andb_true_iff, Z.leb_le, Z.ltb_lt. lia.
Qed.
Print Assumptions C105_facets.
Example C105_facets_case : facet_metric 1 2 7 (@allocated Z 0 4 1 0) = Ok (mkTetin 0 4 1 [] [] [] (repeat None 4) [None; Some 7; Some 7; None] []).
Proof. reflexivity. Qed.
Example C105_hyps : whole (@allocated Z 3 0 2 0) /\ point_metric 1 2 [8; 9] (@allocated Z 3 0 2 0) =
  Ok (mkTetin 3 0 2 (repeat None 9) [None; None; Some 8; Some 9; Some 8; Some 9] (repeat None 3) [] [] []).
Proof. split; [repeat split; simpl; lia|reflexivity]. Qed.
Definition no_mesh : mesh := mkMesh [] [] [] [] 0.
Example C105_empty : well_connected no_mesh /\ outlined no_mesh /\ with_coords no_mesh (@nil (list Z)).
Proof.
  split; [|split].
  - split; [|split]; [repeat split; try constructor; intros [? [[] _]]|repeat split; intros ? ? [? [[] _]]|repeat split; intros; intros [? [[] _]]].
  - intros s [].
  - split; [reflexivity|intros p []].
Qed.

(** ** C106 *)
Theorem C106_flags : forall m pts, well_connected m -> outlined m -> (forall v, In v pts -> has_vert m v) ->
  exists bs, boundary_faces m pts = Ok bs /\
    Forall2 (fun s b => b = true <-> forall vs v, polygon (edge_joins m) (su_edgeind s) vs -> NoDup vs -> In v vs -> In v pts) (surfs m) bs.
Proof. exact boundary_faces_ok. Qed.
Print Assumptions C106_flags.
Theorem C106_unknown : forall m pts v, In v pts -> ~ has_vert m v -> boundary_faces m pts = UB.
Proof. exact boundary_faces_unknown. Qed.
Print Assumptions C106_unknown.
Example C106_case : boundary_faces ex_mesh [1; 3; 2; 4] = Ok [true; true; true; true; false; false; false].
Proof. vm_compute. reflexivity. Qed.

(** ** C107 *)
Theorem C107_file : forall REAL (t : tetout REAL), su2_legal t ->
  exists cs ds, su2 t = Ok ([Ndime 3; Npoin (numberofpoints t)] ++ map Point cs ++ [Nelem (numberoftetrahedra t)]
      ++ map Tetra (map (fun i => from_0 (firstnumber t) (tetrahedronlist t) (i * Z.to_nat (numberofcorners t)) 4) (seq 0 (numberoftetrahedra t)))
      ++ [Nmark (Z.of_nat (length ds))]
      ++ flat_map (fun d => Tag d :: Elems (Z.of_nat (length (faces_with t d))) :: map Tri (faces_with t d)) ds) /\
    pieces 3 (pointlist t) (numberofpoints t) cs /\ NoDup ds /\ forall d, In d ds <-> d <> 0 /\ In d (marks t).
Proof.
  intros REAL t L. destruct (su2_ok L) as [cs [ds [E [Ec [N M]]]]]. exists cs, ds. split; auto. split; [|auto].
  assert (Hp : (numberofpoints t * 3 <= length (pointlist t))%nat) by apply L.
  destruct (coords_ok' t Hp) as [cs' [E1 E2]]. assert (cs' = cs) by congruence. subst cs'. apply pieces_of; auto.
Qed.
Print Assumptions C107_file.
Example C107_hyps : su2_legal ex_tet.
Proof. repeat split; simpl; try lia. Qed.
Example C107_case : exists l, su2 ex_tet = Ok l /\ skipn 10 l = [Nmark 2; Tag 1; Elems 4; Tri [0;1;2]; Tri [0;1;3]; Tri [0;2;3]; Tri [2;3;4];
  Tag (-1); Elems 2; Tri [1;2;4]; Tri [1;3;4]].
Proof. eexists. split; vm_compute; reflexivity. Qed.
