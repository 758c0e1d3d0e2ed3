(** Property C98: where a snake is started. *)
From Coq Require Import ZArith List QArith Qabs Lia Bool Sorted.
From Verif Require Import Base Containers ContainersProofs Mesh SpecMesh MeshProofs Num Snake Flood SpecFlood PropsFlood
  Family SpecFamily FamilyProofs FamilyMapProofs PropsFamily
  Spawn SpecSpawn SpawnProofs SpawnMore MeshCheck PropsSpawn SpawnVerts SpecSpawnVerts SpawnVertsProofs.
Import ListNotations.
Import Mesh.
Set Implicit Arguments.
Open Scope Z_scope.

(** FindSpawnVerts on a mesh of cells with its border flags set.  vertList holds exactly the
    vertices away from the outside that are at the front between cells at the bound and
    others, or in an outer cell with the wanted target; the result only the latter.
    voluOutList holds these outer cells, and otherwise only cells at the bound. *)
Theorem C98_choice : forall m t h o,
  well_connected m -> volus m <> [] -> meshDim m = 3 -> family_ready m t -> parents_ready t h -> sides_known m ->
  set_borders m = Ok m -> cellular m -> o = 0 \/ o = 1 ->
  exists vs os bs, find_spawn_verts m t h o = Ok (vs, os, bs) /\
    StronglySorted Z.lt vs /\ StronglySorted Z.lt os /\ StronglySorted Z.lt bs /\
    (forall n, In n vs <-> has_vert m n /\ ~ at_outside m n /\ (on_front m t h o n \/ off_outside m t h o n)) /\
    (forall n, In n bs <-> has_vert m n /\ ~ at_outside m n /\ off_outside m t h o n) /\
    (forall c, wanted_cell m t h o c -> In c os) /\
    (forall c, In c os -> wanted_cell m t h o c \/
       (c <> 0 /\ exists s v0 v1 j q, In s (surfs m) /\ sides s v0 v1 /\ (c = v0 \/ c = v1) /\
          Z.of_nat j < nParents t /\ parent_target m t h j c q /\ at_bound (o =? 1) q)).
Proof. intros. apply find_spawn_verts_ok; auto. Qed.
Print Assumptions C98_choice.

(** Any other value of outerBorder is refused. *)
Theorem C98_refused : forall N m0 m t h o, set_borders m0 = Ok m -> o <> 0 -> o <> 1 -> spawn_rsvs N m0 t h o = Throw.
Proof.
  intros N m0 m t h o E N0 N1. unfold spawn_rsvs. rewrite E. cbn [bind]. unfold find_spawn_verts.
  destruct (Z.eqb_spec o 1); [contradiction|]. destruct (Z.eqb_spec o 0); [contradiction|]. reflexivity.
Qed.
Print Assumptions C98_refused.

(** The first phase of SpawnRSVS, from an empty snake.  It succeeds; the snake consists of a
    closed surface with one cell around each chosen vertex, a snaxel going out along each
    edge of each chosen vertex, at the vertex and with velocity 1; and the mesh vertices
    inside are exactly the chosen ones.  [m] is the mesh with its border flags set. *)
Theorem C98_start : forall N m0 m t h o,
  well_connected m0 -> volus m0 <> [] -> set_borders m0 = Ok m ->
  meshDim m = 3 -> family_ready m t -> parents_ready t h -> sides_known m -> cellular m -> o = 0 \/ o = 1 ->
  let chosen := fun n => has_vert m n /\ ~ at_outside m n /\ (on_front m t h o n \/ off_outside m t h o n) in
  exists vs k, spawn_rsvs N m0 t h o = Ok (m, vs, k) /\ (forall n, In n vs <-> chosen n) /\ NoDup vs /\
    well_connected (k_conn k) /\ closed (k_conn k) /\ in_step k /\ on_edges m k /\
    length (volus (k_conn k)) = length vs /\
    (forall v e, (exists x, In x (k_snaxs k) /\ sx_from x = v /\ sx_edge x = e) <-> chosen v /\ VE m v e) /\
    (forall x, In x (k_snaxs k) -> sx_d x = n0 /\ sx_v x = n1 /\ sx_freeze x = 0) /\
    (forall w, has_vert m w -> (vert_inside m k w <-> chosen w)).
Proof.
  intros N m0 m t h o W0 V0 B0 D F P K L O chosen.
  destruct (fixed_borders W0 V0 B0) as [B Sm]. pose proof (alike_connected Sm W0) as W.
  assert (V : volus m <> []).
  { destruct Sm as [E _]. intros Z0. rewrite Z0 in E. destruct (volus m0); [apply V0; auto|discriminate]. }
  destruct (@find_spawn_verts_ok m t h o W V D F P K B L O) as [vs [os [bs [E [Sv [_ [_ [Hvs _]]]]]]]].
  assert (Nd : NoDup vs).
  { clear - Sv. induction Sv as [|a r Hr IH Fa]; constructor; auto. intros C. rewrite Forall_forall in Fa. specialize (Fa _ C). lia. }
  destruct (@C96_history N m vs W V Nd) as [k [Ek [Wk [Ck [_ [Sk [Ok_ [_ [Vk [Fk [Xk [_ [Zk Ik]]]]]]]]]]]]].
  { intros v Hv. apply Hvs in Hv. destruct Hv as [H1 [H2 _]]. destruct L as [L1 _]. apply L1; auto. }
  unfold spawn_rsvs. rewrite B0. cbn [bind]. rewrite E. cbn [bind]. rewrite Ek. cbn [bind].
  eexists vs, _. split; [reflexivity|]. cbn [k_snaxs k_conn].
  set (f := fun x : snax N => @mkSnax N (sx_index x) (sx_d x) n1 (sx_from x) (sx_to x) (sx_edge x) (sx_freeze x) (sx_order x)).
  split; [exact Hvs|]. split; [exact Nd|]. split; [exact Wk|]. split; [exact Ck|].
  split. { destruct Sk as [S1 [S2 S3]]. split; [|auto]. cbn [k_snaxs k_conn]. rewrite map_map. exact S1. }
  split. { intros x Hx. cbn [k_snaxs] in Hx. apply in_map_iff in Hx. destruct Hx as [y [<- Hy]]. exact (Ok_ y Hy). }
  split; [exact Vk|].
  split.
  { intros v e. unfold chosen. rewrite <- (Hvs v), <- Xk. split.
    - intros [x [Hx [<- <-]]]. apply in_map_iff in Hx. destruct Hx as [y [<- Hy]]. exists y. auto.
    - intros [x [Hx [<- <-]]]. exists (f x). split; [apply in_map; auto|auto]. }
  split.
  { intros x Hx. apply in_map_iff in Hx. destruct Hx as [y [<- Hy]]. destruct (Zk y Hy) as [H1 [_ H3]]. simpl. auto. }
  intros w Hw. unfold chosen. rewrite <- (Hvs w), <- (Ik w Hw). unfold vert_inside. cbn [k_in k_flipped]. tauto.
Qed.
Print Assumptions C98_start.

(** The tetrahedron of seven cells.  The cells 1, 2 and 3 are in a full cell of the parent,
    the others in an empty one: the snake starts around vertex 1 and not around 6. *)
Definition ball_tree : tree := mkTree 1 [] [9] [] [[20; 20; 20; 10; 10; 10; 10]].
Definition ball_cells : cells := fun p => if p =? 9 then [mkCell 10 1 0 0 0; mkCell 20 2 0 1 0] else [].
Lemma ball_cellular : cellular ball.
Proof.
  split.
  - intros n [x [Hx <-]] No. destruct Hx as [<-|[<-|[<-|[<-|[<-|[<-|[]]]]]]]; try (apply ball_inside; simpl; auto; fail);
      exfalso; apply No.
    + exists 10. split; [exists 6; split; [exists (mkVert 2 true [1; 6; 7; 8; 9])|exists (mkEdge 6 true [1; 10; 11; 12] [2; 3])]; simpl; auto 20|exists (mkSurf 10 true false [7; 0] [6; 7; 10]); simpl; auto 20].
    + exists 10. split; [exists 6; split; [exists (mkVert 3 true [2; 6; 10; 11; 12])|exists (mkEdge 6 true [1; 10; 11; 12] [2; 3])]; simpl; auto 20|exists (mkSurf 10 true false [7; 0] [6; 7; 10]); simpl; auto 20].
    + exists 10. split; [exists 7; split; [exists (mkVert 4 true [3; 7; 10; 13; 14])|exists (mkEdge 7 true [2; 10; 13; 14] [2; 4])]; simpl; auto 20|exists (mkSurf 10 true false [7; 0] [6; 7; 10]); simpl; auto 20].
    + exists 11. split; [exists 8; split; [exists (mkVert 5 true [4; 8; 11; 13])|exists (mkEdge 8 true [3; 11; 13] [2; 5])]; simpl; auto 20|exists (mkSurf 11 true false [1; 0] [6; 8; 11]); simpl; auto 20].
  - intros e He. simpl in He. repeat destruct He as [<-|He]; try (eexists _, _; reflexivity). destruct He.
Qed.
Example C98_used : well_connected ball /\ volus ball <> [] /\ set_borders ball = Ok ball /\ meshDim ball = 3 /\
  family_ready ball ball_tree /\ parents_ready ball_tree ball_cells /\ sides_known ball /\ cellular ball /\
  find_spawn_verts ball ball_tree ball_cells 0 = Ok ([1], [1; 2; 3], [1]) /\
  find_spawn_verts ball ball_tree ball_cells 1 = Ok ([1], [1; 2; 3; 4; 5; 6], [1]) /\
  exists k, spawn_rsvs Qn ball ball_tree ball_cells 1 = Ok (ball, [1], k) /\ length (k_snaxs k) = 5%nat /\
    k_in k = [true; false; false; false; false; false].
Proof.
  split; [exact ball_connected|]. split; [discriminate|]. split; [vm_compute; reflexivity|]. split; [reflexivity|].
  split.
  { destruct ball_connected as [[U1 [U2 _]] _]. split; [exact U1|]. split; [exact U2|]. split.
    - intros s Hs. simpl in Hs. repeat destruct Hs as [<-|Hs]; try (eexists _, _, []; reflexivity). destruct Hs.
    - split; [simpl; lia|]. intros row [<-|[]]. reflexivity. }
  split.
  { split; [simpl; lia|]. intros [|[|j]] p Hp; simpl in Hp; try discriminate. injection Hp as <-. split.
    - simpl. repeat constructor; simpl; intuition discriminate.
    - intros row Hr c Hc. simpl in Hr. injection Hr as <-. simpl in *. intuition. }
  split.
  { intros s v0 v1 Hs [r Er]. simpl in Hs. repeat destruct Hs as [<-|Hs]; try (simpl in Er; injection Er as <- <- _; unfold inside; simpl; intuition). destruct Hs. }
  split; [exact ball_cellular|]. split; [vm_compute; reflexivity|]. split; [vm_compute; reflexivity|].
  eexists. split; [vm_compute; reflexivity|]. split; reflexivity.
Qed.
