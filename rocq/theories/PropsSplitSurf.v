(** C110: putting the surfaces of a mesh in order. *)
From Verif Require Import Base Containers Mesh SpecMesh MeshProofs SwitchProofs MeshCheck Order SpecOrder OrderProofs SplitSurf SpecSplitSurf
  SplitSurfProofs SplitSurfWhole SplitSurfLoop SplitSurfCheck.
Import Mesh.
Set Implicit Arguments.
Open Scope Z_scope.

(** A triangular prism with a triangular hole through it: the bottom and the
    top are two triangles each. *)
Definition tube : mesh :=
  mkMesh [mkVolu 1 false [1; 2; 3; 4; 5; 6; 7; 8]]
    [mkSurf 1 false false [1; 0] [1; 2; 3; 10; 11; 12]; mkSurf 2 false false [1; 0] [4; 5; 6; 13; 14; 15];
     mkSurf 3 false false [1; 0] [1; 7; 4; 8]; mkSurf 4 false false [1; 0] [2; 8; 5; 9];
     mkSurf 5 false false [1; 0] [3; 9; 6; 7]; mkSurf 6 false false [1; 0] [10; 16; 13; 17];
     mkSurf 7 false false [1; 0] [11; 17; 14; 18]; mkSurf 8 false false [1; 0] [12; 18; 15; 16]]
    [mkEdge 1 false [1; 3] [1; 2]; mkEdge 2 false [1; 4] [2; 3]; mkEdge 3 false [1; 5] [3; 1];
     mkEdge 4 false [2; 3] [4; 5]; mkEdge 5 false [2; 4] [5; 6]; mkEdge 6 false [2; 5] [6; 4];
     mkEdge 7 false [3; 5] [1; 4]; mkEdge 8 false [3; 4] [2; 5]; mkEdge 9 false [4; 5] [3; 6];
     mkEdge 10 false [1; 6] [7; 8]; mkEdge 11 false [1; 7] [8; 9]; mkEdge 12 false [1; 8] [9; 7];
     mkEdge 13 false [2; 6] [10; 11]; mkEdge 14 false [2; 7] [11; 12]; mkEdge 15 false [2; 8] [12; 10];
     mkEdge 16 false [6; 8] [7; 10]; mkEdge 17 false [6; 7] [8; 11]; mkEdge 18 false [7; 8] [9; 12]]
    [mkVert 1 false [1; 3; 7]; mkVert 2 false [1; 2; 8]; mkVert 3 false [2; 3; 9]; mkVert 4 false [4; 6; 7];
     mkVert 5 false [4; 5; 8]; mkVert 6 false [5; 6; 9]; mkVert 7 false [10; 12; 16];
     mkVert 8 false [10; 11; 17]; mkVert 9 false [11; 12; 18]; mkVert 10 false [13; 15; 16];
     mkVert 11 false [13; 14; 17]; mkVert 12 false [14; 15; 18]] 3.
(** The same with two holes. *)
Definition two_holes : mesh :=
  mkMesh [mkVolu 1 false [1; 2; 3; 4; 5; 6; 7; 8; 9; 10; 11]]
    [mkSurf 1 false false [1; 0] [1; 2; 3; 10; 11; 12; 19; 20; 21];
     mkSurf 2 false false [1; 0] [4; 5; 6; 13; 14; 15; 22; 23; 24]; mkSurf 3 false false [1; 0] [1; 7; 4; 8];
     mkSurf 4 false false [1; 0] [2; 8; 5; 9]; mkSurf 5 false false [1; 0] [3; 9; 6; 7];
     mkSurf 6 false false [1; 0] [10; 16; 13; 17]; mkSurf 7 false false [1; 0] [11; 17; 14; 18];
     mkSurf 8 false false [1; 0] [12; 18; 15; 16]; mkSurf 9 false false [1; 0] [19; 25; 22; 26];
     mkSurf 10 false false [1; 0] [20; 26; 23; 27]; mkSurf 11 false false [1; 0] [21; 27; 24; 25]]
    [mkEdge 1 false [1; 3] [1; 2]; mkEdge 2 false [1; 4] [2; 3]; mkEdge 3 false [1; 5] [3; 1];
     mkEdge 4 false [2; 3] [4; 5]; mkEdge 5 false [2; 4] [5; 6]; mkEdge 6 false [2; 5] [6; 4];
     mkEdge 7 false [3; 5] [1; 4]; mkEdge 8 false [3; 4] [2; 5]; mkEdge 9 false [4; 5] [3; 6];
     mkEdge 10 false [1; 6] [7; 8]; mkEdge 11 false [1; 7] [8; 9]; mkEdge 12 false [1; 8] [9; 7];
     mkEdge 13 false [2; 6] [10; 11]; mkEdge 14 false [2; 7] [11; 12]; mkEdge 15 false [2; 8] [12; 10];
     mkEdge 16 false [6; 8] [7; 10]; mkEdge 17 false [6; 7] [8; 11]; mkEdge 18 false [7; 8] [9; 12];
     mkEdge 19 false [1; 9] [13; 14]; mkEdge 20 false [1; 10] [14; 15]; mkEdge 21 false [1; 11] [15; 13];
     mkEdge 22 false [2; 9] [16; 17]; mkEdge 23 false [2; 10] [17; 18]; mkEdge 24 false [2; 11] [18; 16];
     mkEdge 25 false [9; 11] [13; 16]; mkEdge 26 false [9; 10] [14; 17]; mkEdge 27 false [10; 11] [15; 18]]
    [mkVert 1 false [1; 3; 7]; mkVert 2 false [1; 2; 8]; mkVert 3 false [2; 3; 9]; mkVert 4 false [4; 6; 7];
     mkVert 5 false [4; 5; 8]; mkVert 6 false [5; 6; 9]; mkVert 7 false [10; 12; 16];
     mkVert 8 false [10; 11; 17]; mkVert 9 false [11; 12; 18]; mkVert 10 false [13; 15; 16];
     mkVert 11 false [13; 14; 17]; mkVert 12 false [14; 15; 18]; mkVert 13 false [19; 21; 25];
     mkVert 14 false [19; 20; 26]; mkVert 15 false [20; 21; 27]; mkVert 16 false [22; 24; 25];
     mkVert 17 false [22; 23; 26]; mkVert 18 false [23; 24; 27]] 3.
(** One surface made of two triangles. *)
Definition lone : mesh :=
  mkMesh [] [mkSurf 1 false false [0; 0] [1; 2; 3; 4; 5; 6]]
    [mkEdge 1 false [1] [1; 2]; mkEdge 2 false [1] [2; 3]; mkEdge 3 false [1] [3; 1];
     mkEdge 4 false [1] [4; 5]; mkEdge 5 false [1] [5; 6]; mkEdge 6 false [1] [6; 4]]
    [mkVert 1 false [1; 3]; mkVert 2 false [1; 2]; mkVert 3 false [2; 3];
     mkVert 4 false [4; 6]; mkVert 5 false [4; 5]; mkVert 6 false [5; 6]] 2.

(** ** C110 *)
(** When no surface has more than two polygons, all surfaces end as one closed
    polygon each, those of two polygons being replaced by two surfaces with the
    same sides; the list returned pairs each new surface with the one it comes
    from.  Surfaces marked as ordered are left alone and the mesh stays
    consistent, whatever the spare capacity. *)
Theorem C110_order : forall table m cap,
  (forall l, is_table l (table l)) -> well_connected m -> sided m ->
  Z.of_nat (length (surfs m)) <= cap -> 2 <= cap -> (forall s, In s (surfs m) -> orderable 2 m s) ->
  exists parent m' cap' N, let news := skipn (length (surfs m)) (surfs m') in
    (forall fuel, (N <= fuel)%nat ->
       order_edges table fuel m cap = Ok (m', cap', flat_map (fun t => [parent (su_index t); su_index t]) news)) /\
    well_connected m' /\ parts_of parent m m' /\
    (forall t, In t (surfs m') -> su_ordered t = true /\ one_polygon m' (su_edgeind t)) /\
    (forall q s, nth_error (surfs m) q = Some s -> su_ordered s = true -> nth_error (surfs m') q = Some s).
Proof. intros. apply order_edges_ok; auto. Qed.
Print Assumptions C110_order.
Lemma tube_ok : well_connected tube /\ sided tube /\ forall s, In s (surfs tube) -> orderable 2 tube s.
Proof.
  assert (W : well_connected tube) by (apply well_connectedb_spec; vm_compute; reflexivity).
  split; auto. split; [apply sidedb_ok; vm_compute; reflexivity|].
  apply orderableb_ok; [apply W|vm_compute; reflexivity].
Qed.
(** Without spare capacity: the first surface waits for the second pass. *)
Example C110_used :
  well_connected tube /\ sided tube /\ (forall s, In s (surfs tube) -> orderable 2 tube s) /\
  exists m', order_edges table_of 50 tube 8 = Ok (m', 12, [2; 9; 1; 10]) /\
    map su_edgeind (surfs m') = [[1; 3; 2]; [4; 6; 5]; [1; 7; 4; 8]; [2; 8; 5; 9]; [3; 9; 6; 7];
                                 [10; 16; 13; 17]; [11; 17; 14; 18]; [12; 18; 15; 16]; [13; 15; 14]; [10; 12; 11]].
Proof. destruct tube_ok as [H1 [H2 H3]]. split; auto. split; auto. split; auto. eexists. split; vm_compute; reflexivity. Qed.

(** A surface of any number of polygons, when there is room for all of them. *)
Theorem C110_surface : forall table fuel k m cap n s,
  (forall l, is_table l (table l)) -> nth_error (surfs m) n = Some s -> (length (su_edgeind s) < fuel)%nat ->
  well_connected m -> sided m -> simple_loops m (su_edgeind s) -> at_most m k (su_edgeind s) ->
  Z.of_nat (length (surfs m) + (k - 1)) <= cap ->
  exists m' new parent, order_surface table fuel (Z.of_nat n) m cap = Ok (m', cap, new) /\
    well_connected m' /\ parts_of parent m m' /\ (length (surfs m') <= length (surfs m) + (k - 1))%nat /\
    (forall q, (q < length (surfs m))%nat -> q <> n -> nth_error (surfs m') q = nth_error (surfs m) q) /\
    (exists s', nth_error (surfs m') n = Some s' /\ su_index s' = su_index s /\
                su_ordered s' = true /\ one_polygon m' (su_edgeind s')) /\
    (forall t, In t (skipn (length (surfs m)) (surfs m')) ->
       su_ordered t = true /\ one_polygon m' (su_edgeind t) /\ parent (su_index t) = su_index s).
Proof.
  intros table fuel k m cap n s Ht Hn Hf W SD SL AM Hc.
  assert (Fl : (length (tighten (su_edgeind s)) < fuel)%nat).
  { eapply Nat.le_lt_trans; [|exact Hf]. apply (Nat.le_trans _ (length (nodup Z.eq_dec (su_edgeind s)))).
    - apply tighten_le; [intros e He; apply nodup_In; auto|apply NoDup_nodup].
    - apply NoDup_incl_length; [apply NoDup_nodup|]. intros e He. apply nodup_In in He. auto. }
  destruct (@order_surface_ok table Ht fuel k m cap n s Hn Fl W SD SL AM Hc) as (m' & new & p & H1 & H2 & H3 & H4 & [s' [S1 [S2 [_ [S3 S4]]]]] & H6 & H7 & _).
  exists m', new, p. split; [exact H1|]. split; [exact H2|]. split; [exact H3|]. split; [exact H7|]. split; [exact H4|].
  split; [exists s'; auto|]. intros t It. apply H6 in It as [[I1 I2] I3]. auto.
Qed.
Print Assumptions C110_surface.
Lemma two_holes_ok : well_connected two_holes /\ sided two_holes /\ forall s, In s (surfs two_holes) -> orderable 3 two_holes s.
Proof.
  assert (W : well_connected two_holes) by (apply well_connectedb_spec; vm_compute; reflexivity).
  split; auto. split; [apply sidedb_ok; vm_compute; reflexivity|].
  apply orderableb_ok; [apply W|vm_compute; reflexivity].
Qed.
Example C110_surface_used :
  (forall s, In s (surfs two_holes) -> orderable 3 two_holes s) /\
  exists m', order_surface table_of 10 0 two_holes 13 = Ok (m', 13, 12) /\
    map su_edgeind (skipn 11 (surfs m')) = [[10; 12; 11]; [19; 21; 20]].
Proof. split; [apply two_holes_ok|]. eexists. split; vm_compute; reflexivity. Qed.

(** Finding: with three polygons and a single spare slot the vector of surfaces
    is reallocated while the surface is being split. *)
Theorem C110_dangling_refuted : exists m cap,
  well_connected m /\ sided m /\ Z.of_nat (length (surfs m)) < cap /\ (forall s, In s (surfs m) -> orderable 3 m s) /\
  order_edges table_of 50 m cap = UB.
Proof.
  exists two_holes, 12. destruct two_holes_ok as [H1 [H2 H3]]. split; auto. split; auto. split; [reflexivity|]. split; auto.
Qed.
Print Assumptions C110_dangling_refuted.

(** Finding: of the surfaces split from one, only the first is returned. *)
Theorem C110_returned_refuted : exists m cap m' cap' pairs t,
  well_connected m /\ sided m /\ (forall s, In s (surfs m) -> orderable 3 m s) /\
  order_edges table_of 50 m cap = Ok (m', cap', pairs) /\ In t (surfs m') /\ ~ has_surf m (su_index t) /\
  ~ In (su_index t) pairs.
Proof.
  destruct two_holes_ok as [H1 [H2 H3]].
  destruct (order_edges table_of 50 two_holes 20) as [[[m' cap'] pairs]| | |] eqn:E; vm_compute in E; try discriminate.
  assert (Em := f_equal (fun x => match x with Ok (a, _, _) => a | _ => two_holes end) E). cbv beta iota in Em.
  assert (Ep := f_equal (fun x => match x with Ok (_, _, p) => p | _ => [] end) E). cbv beta iota in Ep.
  exists two_holes, 20, m', cap', pairs, (nth 12 (surfs m') (mkSurf 0 false false [] [])).
  split; auto. split; auto. split; auto. split; [vm_compute; exact E|]. rewrite <- Em, <- Ep. clear E Em Ep.
  split; [|split].
  - simpl. tauto.
  - rewrite has_surf_In. vm_compute. intuition discriminate.
  - vm_compute. intuition discriminate.
Qed.
Print Assumptions C110_returned_refuted.

(** Finding: a volume lists the new surface twice, although no volume listed a
    surface twice before. *)
Theorem C110_twice_refuted : exists m cap m' cap' pairs v t,
  well_connected m /\ sided m /\ (forall s, In s (surfs m) -> orderable 2 m s) /\
  (forall v, In v (volus m) -> NoDup (vo_surfind v)) /\
  order_edges table_of 50 m cap = Ok (m', cap', pairs) /\ In v (volus m') /\ In t (surfs m') /\
  length (filter (Z.eqb (su_index t)) (vo_surfind v)) = 2%nat.
Proof.
  destruct tube_ok as [H1 [H2 H3]].
  destruct (order_edges table_of 50 tube 8) as [[[m' cap'] pairs]| | |] eqn:E; vm_compute in E; try discriminate.
  assert (Em := f_equal (fun x => match x with Ok (a, _, _) => a | _ => tube end) E). cbv beta iota in Em.
  exists tube, 8, m', cap', pairs, (nth 0 (volus m') (mkVolu 0 false [])), (nth 8 (surfs m') (mkSurf 0 false false [] [])).
  split; auto. split; auto. split; auto.
  split; [intros v [<-|[]]; simpl; repeat constructor; simpl; intuition discriminate|].
  split; [vm_compute; exact E|]. rewrite <- Em. clear E Em.
  split; [simpl; tauto|]. split; [simpl; tauto|]. reflexivity.
Qed.
Print Assumptions C110_twice_refuted.

(** Finding: a mesh of one surface whose vector has room for one never gets its
    second surface: a capacity of one does not grow. *)
Theorem C110_one_refuted : exists m m' s,
  well_connected m /\ sided m /\ (forall s, In s (surfs m) -> orderable 2 m s) /\ length (surfs m) = 1%nat /\
  order_edges table_of 50 m 1 = Ok (m', 1, []) /\ surfs m' = [s] /\ su_ordered s = false.
Proof.
  assert (W : well_connected lone) by (apply well_connectedb_spec; vm_compute; reflexivity).
  exists lone. eexists. eexists. split; auto. split; [apply sidedb_ok; vm_compute; reflexivity|].
  split; [apply orderableb_ok; [apply W|vm_compute; reflexivity]|]. split; [reflexivity|].
  split; [vm_compute; reflexivity|]. split; reflexivity.
Qed.
Print Assumptions C110_one_refuted.
