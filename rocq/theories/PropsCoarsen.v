(** C47: coarsening a mesh.  C69: the boxes of CartesianMapping. *)
From Coq Require Import Reals Lra.
From Verif Require Import Base Mesh SpecMesh Geom MeshProofs SwitchProofs Coarsen SpecCoarsen CoarsenProofs MappingProofs.
Set Implicit Arguments.
Open Scope Z_scope.

(** ** C47 *)
(** In two dimensions, a mapping that sends each surface to the representative
    of its group gives the mesh in which every group is one surface. *)
Theorem C47_two_dimensions f m past : meshDim m = 2 -> volus m = [] -> well_connected m ->
  (forall e, In e (edges m) -> (length (ed_vertind e) <= 2)%nat) ->
  grouping (has_surf m) f ->
  exists m', coarsen_mesh past (map f (map su_index (surfs m))) m = Ok m' /\ coarsened2 f m m'.
Proof. intros D V W L G. unfold coarsen_mesh. rewrite D. cbn [Z.eqb Pos.eqb]. apply coarsen2_spec; auto. Qed.
Print Assumptions C47_two_dimensions.

(** In three dimensions the same holds when reading one past the end of a
    vector shortened in place gives the value that was there. *)
Theorem C47_three_dimensions_partial f m : meshDim m = 3 -> volus m <> [] -> well_connected m ->
  (forall e, In e (edges m) -> (length (ed_vertind e) <= 2)%nat) ->
  (forall s, In s (surfs m) -> su_voluind s <> []) ->
  grouping (has_volu m) f ->
  exists m', coarsen_mesh (fun x => Ok x) (map f (map vo_index (volus m))) m = Ok m' /\ coarsened3 f m m'.
Proof. intros D V W L S G. unfold coarsen_mesh. rewrite D. cbn [Z.eqb Pos.eqb]. apply coarsen3_spec; auto. Qed.
Print Assumptions C47_three_dimensions_partial.

(** It never holds otherwise: whenever a surface has both its sides in one
    group, so whenever coarsening is of any use, line 111 reads outside the
    references of a surface. *)
Theorem C47_out_of_range_refuted f m : meshDim m = 3 -> volus m <> [] -> well_connected m ->
  (forall e, In e (edges m) -> (length (ed_vertind e) <= 2)%nat) ->
  (forall s, In s (surfs m) -> su_voluind s <> []) ->
  grouping (has_volu m) f -> (exists s, has_surf m s /\ inner f (SV m s)) ->
  coarsen_mesh (fun _ => UB) (map f (map vo_index (volus m))) m = UB.
Proof. intros D V W L S G I. unfold coarsen_mesh. rewrite D. cbn [Z.eqb Pos.eqb]. apply coarsen3_ub; auto. Qed.
Print Assumptions C47_out_of_range_refuted.

(** When no surface lies inside a group, nothing is read outside. *)
Theorem C47_no_inner_surface f m past : meshDim m = 3 -> volus m <> [] -> well_connected m ->
  (forall e, In e (edges m) -> (length (ed_vertind e) <= 2)%nat) ->
  (forall s, In s (surfs m) -> su_voluind s <> []) ->
  grouping (has_volu m) f -> (forall s, has_surf m s -> ~ inner f (SV m s)) ->
  exists m', coarsen_mesh past (map f (map vo_index (volus m))) m = Ok m' /\ coarsened3 f m m'.
Proof.
  intros D V W L S G I. unfold coarsen_mesh. rewrite D. cbn [Z.eqb Pos.eqb]. rewrite coarsen3_past; auto. apply coarsen3_spec; auto.
Qed.
Print Assumptions C47_no_inner_surface.

(** A mapping with the wrong number of entries, or one that names an unknown
    cell, is refused; so is a mesh that is neither 2D nor 3D. *)
Theorem C47_bad_mapping past elm m :
  (meshDim m = 2 -> length elm <> length (surfs m) \/ exists x, In x elm /\ ~ has_surf m x) ->
  (meshDim m = 3 -> length elm <> length (volus m) \/ exists x, In x elm /\ ~ has_volu m x) ->
  coarsen_mesh past elm m = Throw.
Proof.
  assert (R : forall A (idx : A -> Z) cells, length elm <> length cells \/ (exists x, In x elm /\ ~ exists a, In a cells /\ idx a = x) ->
    mapping_matches idx cells elm = false).
  { intros A idx cells [H|[x [Hx Hn]]]; unfold mapping_matches; apply Bool.andb_false_iff.
    - left. apply Nat.eqb_neq. auto.
    - right. destruct (forallb _ elm) eqn:E; auto. rewrite forallb_forall in E. specialize (E x Hx). exfalso.
      destruct (find_spec idx cells x) as [[F _]|[j [a [_ [Ha Hi]]]]]; [rewrite F in E; discriminate|].
      apply Hn. exists a. split; auto. eapply nth_error_In; eauto. }
  intros H2 H3. unfold coarsen_mesh.
  destruct (Z.eqb_spec (meshDim m) 2) as [E|_]; [unfold coarsen2; rewrite R; auto|].
  destruct (Z.eqb_spec (meshDim m) 3) as [E|_]; [unfold coarsen3; rewrite R; auto|]. reflexivity.
Qed.
Print Assumptions C47_bad_mapping.

(** Three cells in a row. *)
Definition strip : mesh :=
  mkMesh [] [mkSurf 1 false false [0; 0] [1; 2]; mkSurf 2 false false [0; 0] [2; 3]; mkSurf 3 false false [0; 0] [3; 4]]
    [mkEdge 1 false [1; 0] [1; 2]; mkEdge 2 false [1; 2] [1; 2]; mkEdge 3 false [2; 3] [1; 2]; mkEdge 4 false [3; 0] [1; 2]]
    [mkVert 1 false [1; 2; 3; 4]; mkVert 2 false [1; 2; 3; 4]] 2.
Definition pile : mesh :=
  mkMesh [mkVolu 1 false [1; 2]; mkVolu 2 false [2; 3]; mkVolu 3 false [3; 4]]
    [mkSurf 1 false false [1; 0] [1; 2]; mkSurf 2 false false [1; 2] [1; 2];
     mkSurf 3 false false [2; 3] [1; 2]; mkSurf 4 false false [3; 0] [1; 2]]
    [mkEdge 1 false [1; 2; 3; 4] [1; 2]; mkEdge 2 false [1; 2; 3; 4] [1; 2]]
    [mkVert 1 false [1; 2]; mkVert 2 false [1; 2]] 3.

Ltac find_it := (left; reflexivity) + (right; find_it).
Ltac connected := split; [|split];
  [ unfold unique_indices, has_volu, has_surf, has_edge, has_vert; simpl;
    repeat (split; [repeat constructor; simpl; intuition discriminate|]);
    repeat split; intros [? [H1 H2]]; simpl in H1; repeat destruct H1 as [<-|H1]; try discriminate; try destruct H1
  | unfold mutual, VE, EV, ES, SE, SV, VS, lists; repeat split; intros ? ? [x [H1 [H2 H3]]] N; simpl in H1;
    repeat destruct H1 as [H1|H1]; try (exfalso; exact H1); subst; simpl in H3;
    repeat destruct H3 as [H3|H3]; try (exfalso; exact H3); subst; try congruence; simpl;
    eexists; (split; [find_it | split; [reflexivity | simpl; solve [auto 6]]])
  | unfold exterior_only, VE, EV, ES, SE, VS, lists; split; [|split; [|split; [|split]]];
    try (intros N; exfalso; apply N; reflexivity); try (intros _);
    intros ? [x [H1 [H2 H3]]]; simpl in H1; repeat destruct H1 as [H1|H1]; try (exfalso; exact H1); subst; simpl in H3;
    intuition discriminate ].
Lemma strip_connected : well_connected strip. Proof. connected. Qed.
Lemma pile_connected : well_connected pile. Proof. connected. Qed.

(** Cells 1 and 2 become cell 1. *)
Definition first_two (x : Z) : Z := if x =? 2 then 1 else x.
Example C47_used2 : meshDim strip = 2 /\ volus strip = [] /\ well_connected strip /\
  (forall e, In e (edges strip) -> (length (ed_vertind e) <= 2)%nat) /\ grouping (has_surf strip) first_two /\
  (exists e, has_edge strip e /\ inner first_two (ES strip e)).
Proof.
  split; [reflexivity|]. split; [reflexivity|]. split; [exact strip_connected|].
  split; [intros e [<-|[<-|[<-|[<-|[]]]]]; simpl; lia|]. split.
  - split; [reflexivity|]. intros c [s [[<-|[<-|[<-|[]]]] <-]]; (split; [|reflexivity]); eexists; (split; [find_it|reflexivity]).
  - exists 2. split; [eexists; split; [find_it|reflexivity]|]. exists 1. split.
    + exists 1. eexists; split; [find_it|split; [reflexivity|simpl; solve [auto]]].
    + intros x [e [[<-|[<-|[<-|[<-|[]]]]] [H1 H2]]]; simpl in H1; try discriminate. simpl in H2. destruct H2 as [<-|[<-|[]]]; reflexivity.
Qed.
Example C47_used3 : meshDim pile = 3 /\ volus pile <> [] /\ well_connected pile /\
  (forall e, In e (edges pile) -> (length (ed_vertind e) <= 2)%nat) /\
  (forall s, In s (surfs pile) -> su_voluind s <> []) /\ grouping (has_volu pile) first_two /\
  (exists s, has_surf pile s /\ inner first_two (SV pile s)).
Proof.
  split; [reflexivity|]. split; [discriminate|]. split; [exact pile_connected|].
  split; [intros e [<-|[<-|[]]]; simpl; lia|].
  split; [intros s [<-|[<-|[<-|[<-|[]]]]]; discriminate|]. split.
  - split; [reflexivity|]. intros c [s [[<-|[<-|[<-|[]]]] <-]]; (split; [|reflexivity]); eexists; (split; [find_it|reflexivity]).
  - exists 2. split; [eexists; split; [find_it|reflexivity]|]. exists 1. split.
    + exists 1. eexists; split; [find_it|split; [reflexivity|simpl; solve [auto]]].
    + intros x [s [[<-|[<-|[<-|[<-|[]]]]] [H1 H2]]]; simpl in H1; try discriminate. simpl in H2. destruct H2 as [<-|[<-|[]]]; reflexivity.
Qed.
(** Cells 1 and 3 do not touch: grouping them leaves no inner surface. *)
Definition ends (x : Z) : Z := if x =? 3 then 1 else x.
Example C47_no_inner_used : grouping (has_volu pile) ends /\ forall s, has_surf pile s -> ~ inner ends (SV pile s).
Proof.
  split.
  - split; [reflexivity|]. intros c [s [[<-|[<-|[<-|[]]]] <-]]; (split; [|reflexivity]); eexists; (split; [find_it|reflexivity]).
  - assert (T : forall s x y, (exists a, In a (surfs pile) /\ su_index a = s /\ su_voluind a = [x; y]) -> ends x <> ends y -> ~ inner ends (SV pile s)).
    { intros s x y [a [Ha [Hi Hv]]] N [z [_ H]]. apply N. transitivity z; [|symmetry]; apply H; exists a; rewrite Hv; simpl; auto. }
    intros s [a [[<-|[<-|[<-|[<-|[]]]]] <-]]; [apply (T _ 1 0)|apply (T _ 1 2)|apply (T _ 2 3)|apply (T _ 3 0)]; try discriminate;
      eexists; (split; [find_it|split; reflexivity]).
Qed.

(** A mapping accepted by the tests (each entry names a cell) which is not
    idempotent breaks the mesh.  Exchanging the names of two cells, which asks
    for no merge at all, loses the edge between them and leaves both cells, one
    of which refers to the deleted edge; a chain 1 -> 2 -> 3 does the same. *)
Theorem C47_exchange_refuted : exists m', coarsen_mesh (fun x => Ok x) [2; 1; 3] strip = Ok m' /\
  has_surf m' 1 /\ has_surf m' 2 /\ ~ has_edge m' 2 /\ SE m' 2 2 /\ ~ well_connected m'.
Proof.
  eexists. split; [vm_compute; reflexivity|].
  split; [eexists; split; [find_it|reflexivity]|]. split; [eexists; split; [find_it|reflexivity]|].
  assert (N : ~ has_edge (mkMesh []
    [mkSurf 1 false false [0] [1; 3]; mkSurf 2 false false [0] [1; 2; 3]; mkSurf 3 false false [0] [3; 4]]
    [mkEdge 1 false [0; 1] [1; 2]; mkEdge 3 false [1; 3] [1; 2]; mkEdge 4 false [0; 3] [1; 2]]
    [mkVert 1 false [1; 3; 4]; mkVert 2 false [1; 3; 4]] 2) 2).
  { intros [e [[<-|[<-|[<-|[]]]] H]]; discriminate. }
  split; [exact N|].
  assert (H : SE (mkMesh []
    [mkSurf 1 false false [0] [1; 3]; mkSurf 2 false false [0] [1; 2; 3]; mkSurf 3 false false [0] [3; 4]]
    [mkEdge 1 false [0; 1] [1; 2]; mkEdge 3 false [1; 3] [1; 2]; mkEdge 4 false [0; 3] [1; 2]]
    [mkVert 1 false [1; 3; 4]; mkVert 2 false [1; 3; 4]] 2) 2 2).
  { eexists; split; [find_it|split; [reflexivity|simpl; solve [auto]]]. }
  split; [exact H|]. intros W. apply N. apply (wc_SE W H).
Qed.
Print Assumptions C47_exchange_refuted.
Theorem C47_chain_refuted : exists m', coarsen_mesh (fun x => Ok x) [2; 3; 3] strip = Ok m' /\
  has_surf m' 2 /\ ~ (exists e, ES m' e 2) /\ ~ well_connected m'.
Proof.
  eexists. split; [vm_compute; reflexivity|].
  split; [eexists; split; [find_it|reflexivity]|].
  match goal with |- ~ (exists e, ES ?m e 2) /\ _ => assert (N : ~ exists e, ES m e 2);
    [|assert (H : SE m 2 1)] end.
  - intros [e [x [[<-|[<-|[]]] [_ H2]]]]; simpl in H2; intuition discriminate.
  - eexists; split; [find_it|split; [reflexivity|simpl; solve [auto]]].
  - split; [exact N|]. intros [_ [[_ [_ [_ [M _]]]] _]]. apply N. exists 1. apply M; [exact H|lia].
Qed.
Print Assumptions C47_chain_refuted.

(** ** C69 *)
(** Every vertex has a point, points have three coordinates, there is a vertex. *)
Definition placed (g : gmesh) : Prop :=
  length (gcoord g) = length (verts (gtopo g)) /\ (forall p, In p (gcoord g) -> length p = 3%nat) /\ verts (gtopo g) <> [].

(** The mapping sends each cell to the first cell of its box: two cells get the
    same representative exactly when their centres lie in the same box of the
    regular split of the bounding box of the mesh.  [placed] and a positive extent
    in each direction are needed. *)
Theorem C69_volumes g d0 d1 d2 : meshDim (gtopo g) = 3 -> well_connected (gtopo g) -> placed g ->
  (forall j lo hi, (j < 3)%nat -> extent g j lo hi -> (lo < hi)%R) ->
  (forall c, has_volu (gtopo g) c -> exists v, volu_has (gtopo g) c v) ->
  let dims := (Z.max 1 d0, Z.max 1 d1, Z.max 1 d2) in
  exists (f : Z -> Z) (box : Z -> Z * Z * Z),
    cartesian_mapping (d0, d1, d2) g = Ok (map f (map vo_index (volus (gtopo g)))) /\
    grouping (has_volu (gtopo g)) f /\
    (forall c, has_volu (gtopo g) c -> in_box g (volu_has (gtopo g) c) dims (box c)) /\
    (forall c c', has_volu (gtopo g) c -> has_volu (gtopo g) c' -> (f c = f c' <-> box c = box c')).
Proof.
  intros D W [P1 [P2 P3]] E V. cbv zeta. unfold cartesian_mapping. rewrite D. cbn [Z.eqb Pos.eqb].
  pose proof W as [[U1 [U2 [U3 [U4 [U5 [U6 _]]]]]] _].
  apply (@mapping_spec g W P1 P2 _ vo_index (volu_vert_pos (gtopo g)) (volu_has (gtopo g)) (volus (gtopo g)) (has_volu (gtopo g))); auto.
  - intros i. apply has_volu_In.
  - intros c Hc. apply volu_pos_ok; auto. apply V. exists c. auto.
Qed.
Print Assumptions C69_volumes.
Theorem C69_surfaces g d0 d1 d2 : meshDim (gtopo g) = 2 -> well_connected (gtopo g) -> placed g ->
  (forall j lo hi, (j < 3)%nat -> extent g j lo hi -> (lo < hi)%R) ->
  (forall c, has_surf (gtopo g) c -> exists v, surf_has (gtopo g) c v) ->
  let dims := (Z.max 1 d0, Z.max 1 d1, Z.max 1 d2) in
  exists (f : Z -> Z) (box : Z -> Z * Z * Z),
    cartesian_mapping (d0, d1, d2) g = Ok (map f (map su_index (surfs (gtopo g)))) /\
    grouping (has_surf (gtopo g)) f /\
    (forall c, has_surf (gtopo g) c -> in_box g (surf_has (gtopo g) c) dims (box c)) /\
    (forall c c', has_surf (gtopo g) c -> has_surf (gtopo g) c' -> (f c = f c' <-> box c = box c')).
Proof.
  intros D W [P1 [P2 P3]] E V. cbv zeta. unfold cartesian_mapping. rewrite D. cbn [Z.eqb Pos.eqb].
  pose proof W as [[U1 [U2 [U3 [U4 [U5 [U6 _]]]]]] _].
  apply (@mapping_spec g W P1 P2 _ su_index (surf_vert_pos (gtopo g)) (surf_has (gtopo g)) (surfs (gtopo g)) (has_surf (gtopo g))); auto.
  - intros i. apply has_surf_In.
  - intros c Hc. apply surf_pos_ok; auto. apply V. exists c. auto.
Qed.
Print Assumptions C69_surfaces.

(** A mesh with no extent in one direction, such as every planar 2D mesh, makes
    the function divide 0 by 0 and convert the result to an integer. *)
Theorem C69_flat_refuted g dims (j : nat) : meshDim (gtopo g) = 2 -> well_connected (gtopo g) -> placed g ->
  (j < 3)%nat ->
  (forall v w, has_vert (gtopo g) v -> has_vert (gtopo g) w -> coordinate g j v = coordinate g j w) ->
  surfs (gtopo g) <> [] ->
  (forall c, has_surf (gtopo g) c -> exists v, surf_has (gtopo g) c v) ->
  cartesian_mapping dims g = UB.
Proof.
  intros D W [P1 [P2 P3]] J F N V. unfold cartesian_mapping. rewrite D. cbn [Z.eqb Pos.eqb]. destruct dims as [[d0 d1] d2].
  destruct (surfs (gtopo g)) as [|c cells] eqn:E; [congruence|].
  assert (Hc : In c (surfs (gtopo g))) by (rewrite E; left; reflexivity).
  destruct (@surf_pos_ok g W c Hc) as [vs [H1 [H2 [H3 _]]]]; [apply V; exists c; auto|].
  eapply flat_cells; eauto.
Qed.
Print Assumptions C69_flat_refuted.

(** CoarsenMesh applied to the mapping of CartesianMapping, as Voxel does: one
    cell for each occupied box. *)
Theorem C69_then_coarsen g d0 d1 d2 past : meshDim (gtopo g) = 2 -> volus (gtopo g) = [] -> well_connected (gtopo g) -> placed g ->
  (forall j lo hi, (j < 3)%nat -> extent g j lo hi -> (lo < hi)%R) ->
  (forall e, In e (edges (gtopo g)) -> (length (ed_vertind e) <= 2)%nat) ->
  (forall c, has_surf (gtopo g) c -> exists v, surf_has (gtopo g) c v) ->
  exists elm m' f box, cartesian_mapping (d0, d1, d2) g = Ok elm /\ coarsen_mesh past elm (gtopo g) = Ok m' /\
    coarsened2 f (gtopo g) m' /\
    (forall c, has_surf (gtopo g) c -> has_surf m' (f c)) /\
    (forall c c', has_surf m' c -> has_surf m' c' -> box c = box c' -> c = c') /\
    (forall c, has_surf (gtopo g) c ->
       in_box g (surf_has (gtopo g) c) (Z.max 1 d0, Z.max 1 d1, Z.max 1 d2) (box c) /\ box (f c) = box c).
Proof.
  intros D V W P E L H. destruct (@C69_surfaces g d0 d1 d2 D W P E H) as [f [box [R [G [B I]]]]].
  destruct (@C47_two_dimensions f (gtopo g) past D V W L G) as [m' [R' C]].
  exists (map f (map su_index (surfs (gtopo g)))), m', f, box. split; [exact R|]. split; [exact R'|]. split; [exact C|].
  destruct C as [Cs _]. destruct G as [_ G]. split; [|split].
  - intros c Hc. apply Cs. apply G. exact Hc.
  - intros c c' Hc Hc' Hb. apply Cs in Hc. apply Cs in Hc'. destruct Hc as [Hc Ec]. destruct Hc' as [Hc' Ec'].
    rewrite <- Ec, <- Ec'. apply I; auto.
  - intros c Hc. split; [apply B; exact Hc|]. apply I; [apply G; exact Hc|exact Hc|]. apply G. exact Hc.
Qed.
Print Assumptions C69_then_coarsen.

(** The strip bent in space: the two vertices differ in each coordinate. *)
Definition bent : gmesh := mkG strip [[0; 0; 0]; [2; 3; 4]]%R.
Definition level : gmesh := mkG strip [[0; 0; 0]; [2; 3; 0]]%R.
Example C69_used : placed bent /\ (forall j lo hi, (j < 3)%nat -> extent bent j lo hi -> (lo < hi)%R) /\
  (forall c, has_surf (gtopo bent) c -> exists v, surf_has (gtopo bent) c v).
Proof.
  split; [|split].
  - split; [reflexivity|]. split; [intros p [<-|[<-|[]]]; reflexivity|discriminate].
  - intros j lo hi Hj [_ [_ H]].
    assert (H1 := H 1 (ex_intro _ (mkVert 1 false [1; 2; 3; 4]) (conj (or_introl eq_refl) eq_refl))).
    assert (H2 := H 2 (ex_intro _ (mkVert 2 false [1; 2; 3; 4]) (conj (or_intror (or_introl eq_refl)) eq_refl))).
    destruct j as [|[|[|j]]]; [| | |lia].
    + change (coordinate bent 0 1) with 0%R in H1. change (coordinate bent 0 2) with 2%R in H2. lra.
    + change (coordinate bent 1 1) with 0%R in H1. change (coordinate bent 1 2) with 3%R in H2. lra.
    + change (coordinate bent 2 1) with 0%R in H1. change (coordinate bent 2 2) with 4%R in H2. lra.
  - intros c Hc. exists 1. destruct Hc as [s [[<-|[<-|[<-|[]]]] <-]]; [exists 1|exists 2|exists 3];
      (split; [eexists; split; [find_it|split; [reflexivity|simpl; auto]]|eexists; split; [find_it|split; [reflexivity|simpl; auto]]]).
Qed.
Example C69_flat_used : placed level /\
  (forall v w, has_vert (gtopo level) v -> has_vert (gtopo level) w -> coordinate level 2 v = coordinate level 2 w) /\
  surfs (gtopo level) <> [] /\ cartesian_mapping (2, 2, 1) level = UB.
Proof.
  assert (P : placed level) by (split; [reflexivity|split; [intros p [<-|[<-|[]]]; reflexivity|discriminate]]).
  assert (F : forall v w, has_vert (gtopo level) v -> has_vert (gtopo level) w -> coordinate level 2 v = coordinate level 2 w).
  { intros v w [a [[<-|[<-|[]]] <-]] [b [[<-|[<-|[]]] <-]]; reflexivity. }
  split; [exact P|]. split; [exact F|]. split; [discriminate|].
  apply (@C69_flat_refuted level (2, 2, 1) 2); auto; [exact strip_connected|discriminate|].
  apply C69_used.
Qed.
