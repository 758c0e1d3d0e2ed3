(** C109: the orientation of surfaces. *)
From Coq Require Import Reals Lra.
From Verif Require Import Base Mesh Edit Order Geom SpecMesh SpecOrder SpecEdit SpecGeom MeshProofs MeshCheck EditProofs CoordProofs GeomProofs CentreProofs PropsGeom
  Orient OrientGeom SpecOrient OrientProofs OrientFaces OrientCheck.
Import Mesh.
Set Implicit Arguments.
Open Scope Z_scope.

Lemma lists_turned g m i x : SV (turned g m) i x <-> SV m i x.
Proof.
  unfold SV, lists, turned. cbn [surfs]. split.
  - intros [a [A [B C]]]. apply in_map_iff in A as [s [<- Is]]. fold (tf g s) in B, C. rewrite tf_idx in B. rewrite tf_In in C. exists s. auto.
  - intros [s [A [B C]]]. exists (tf g s). split; [apply in_map_iff; exists s; auto|]. rewrite tf_idx, tf_In. auto.
Qed.
Lemma edges_turned g m i x : SE (turned g m) i x <-> SE m i x.
Proof.
  unfold SE, lists, turned. cbn [surfs]. split.
  - intros [a [A [B C]]]. apply in_map_iff in A as [s [<- Is]]. fold (tf g s) in B, C. rewrite tf_idx in B. rewrite tf_edges in C. exists s. auto.
  - intros [s [A [B C]]]. exists (tf g s). split; [apply in_map_iff; exists s; auto|]. rewrite tf_idx, tf_edges. auto.
Qed.
Lemma turned_connected g m : well_connected m -> well_connected (turned g m).
Proof.
  intros [U [M X]]. assert (E : map su_index (surfs (turned g m)) = map su_index (surfs m)).
  { unfold turned. cbn [surfs]. rewrite map_map. apply map_ext. intros s. apply (tf_idx g s). }
  split; [|split].
  - destruct U as [A [B [C [D [E1 [E2 E3]]]]]]. split; auto. split; [rewrite E; auto|]. split; auto. split; auto. split; auto. split; auto.
    intros [a [A1 A2]]. apply E2. change (exists s, In s (surfs m) /\ su_index s = 0). rewrite <- in_map_idx, <- E, in_map_idx. exists a. auto.
  - destruct M as [A [B [C [D [F G]]]]]. repeat split; auto.
    + intros e s H N. rewrite edges_turned. auto.
    + intros e s H N. rewrite edges_turned in H. apply (D e s H N).
    + intros s v H N. rewrite lists_turned in H. apply (F s v H N).
    + intros s v H N. rewrite lists_turned. apply (G s v H N).
  - destruct X as [A [B [C [D F]]]]. repeat split; auto. intros s H. rewrite edges_turned in H. exact (C s H).
Qed.

(** C109: on a mesh of polygons between two cells OrientFaces ends.  It exchanges the sides
    of some surfaces and changes nothing else, whatever the test of the direction answers.
    If there is a choice of sides for which all surfaces that share an edge and a cell are
    oriented alike, the result is such a choice. *)
Theorem C109_relative : forall m facing, well_connected m -> faces m -> 3 <= meshDim m ->
  exists h, orient_faces m facing = Ok (turned h m) /\ well_connected (turned h m) /\
    ((exists g, oriented (turned g m)) -> oriented (turned h m)).
Proof.
  intros m facing W F D. destruct (faces_oriented W F D facing) as [h [R [O _]]]. exists h. split; auto. split; [apply turned_connected; auto|].
  intros [g Og]. eauto.
Qed.
Print Assumptions C109_relative.
(** C109: if moreover the test of the direction never contradicts one such choice and
    answers for some surface of each connected part, the result is that choice. *)
Theorem C109_true_sides : forall m facing g, well_connected m -> faces m -> 3 <= meshDim m ->
  oriented (turned g m) -> truthful m g facing -> decided m facing -> orient_faces m facing = Ok (turned g m).
Proof.
  intros m facing g W F D O T X. destruct (faces_oriented W F D facing) as [h [R [_ E]]]. rewrite R. f_equal. auto.
Qed.
Print Assumptions C109_true_sides.

(** A grid of two cells: it meets the conditions, and its surfaces are not oriented alike at
    first. *)
Definition two_cells : mesh := Eval vm_compute in Voxel.block_grid Z.div Z.div (2, 1, 1).
Definition two_turn (i : Z) : bool := existsb (Z.eqb i) [1; 2; 3; 4; 9; 10; 11].
(** The cell is on the first side of surfaces 3, 4, 5, 6 and 11, and of 10 for cell 1. *)
Definition two_facing (i c : Z) : Z := if existsb (Z.eqb i) [3; 4; 5; 6; 11] || ((i =? 10) && (c =? 1)) then 1 else -1.
Lemma two_decided : decided two_cells two_facing.
Proof.
  intros s Is. exists s. split; auto. split; [constructor|]. intros c _ _. unfold two_facing.
  destruct (existsb (Z.eqb (su_index s)) [3; 4; 5; 6; 11] || ((su_index s =? 10) && (c =? 1))); discriminate.
Qed.
Lemma two_truthful : truthful two_cells two_turn two_facing.
Proof.
  assert (X : forallb (fun s => forallb (fun c => (c =? 0) || Bool.eqb (0 <? two_facing (su_index s) c) (firstb (if two_turn (su_index s) then turn s else s) c)) (su_voluind s)) (surfs two_cells) = true) by (vm_compute; reflexivity).
  intros s c Is C0 Ic. rewrite forallb_forall in X. specialize (X s Is). rewrite forallb_forall in X. specialize (X c Ic).
  replace (c =? 0) with false in X by (symmetry; apply Z.eqb_neq; auto). cbn [orb] in X. apply Bool.eqb_prop in X. cbv zeta.
  rewrite <- firstb_ok, <- X. rewrite Z.ltb_lt. lia.
Qed.
Example C109_hyps : well_connected two_cells /\ faces two_cells /\ 3 <= meshDim two_cells /\ oriented (turned two_turn two_cells) /\
  truthful two_cells two_turn two_facing /\ decided two_cells two_facing /\ orientedb two_cells = false.
Proof.
  assert (W : well_connected two_cells) by (apply well_connectedb_spec; vm_compute; reflexivity).
  split; auto. split; [apply facesb_ok; vm_compute; reflexivity|]. split; [vm_compute; discriminate|].
  split; [apply orientedb_ok; [apply W|vm_compute; reflexivity]|]. split; [apply two_truthful|]. split; [apply two_decided|vm_compute; reflexivity].
Qed.

(** C109: the direction itself is not reliable.  CalcCentreVolu returns twice the centre
    (C62), so the side of a surface on which the cell lies is misjudged away from the
    origin.  For the cell from (-4, -4, -4) to (-3, -3, -3) all surfaces end up with
    normals that point into the cell although it is their first side. *)
Theorem C109_direction_refuted : exists g m' s n p, well_connected (gtopo g) /\ faces (gtopo g) /\
  orient_faces (gtopo g) (facing_of g) = Ok m' /\ In s (surfs m') /\ first_side s 1 /\ ~ first_side s 0 /\
  pseudo_normal g (su_index s) = Ok n /\ In p (gcoord g) /\
  (forall q, In q (gcoord g) -> (0 <= ip (elems n) (pminus q p))%R) /\
  exists q, In q (gcoord g) /\ (0 < ip (elems n) (pminus q p))%R.
Proof.
  set (g := cube (-4) 1).
  assert (W : well_connected cube_topo) by (apply well_connectedb_spec; vm_compute; reflexivity).
  assert (F : faces cube_topo) by (apply facesb_ok; vm_compute; reflexivity).
  assert (N : exists n, pseudo_normal g 1 = Ok n /\ elems n = [0; 0; 1]%R).
  { eexists. split; [cbv -[Rplus Rminus Rmult Rdiv sqrt Ropp IZR Rinv]; reflexivity|]. cbn [elems].
    repeat match goal with |- context [sqrt ?x] => replace (sqrt x) with 1%R by (rewrite <- sqrt_1 at 1; f_equal; ring) end.
    repeat (f_equal; try field). }
  destruct N as [n [En Nn]].
  assert (WT : (0 < weight (all_mids (cube_ends (-4) 1)))%R).
  { assert (X : forall es, Forall (Forall (fun pq => dist (fst pq) (snd pq) = 1%R)) es -> weight (all_mids es) = INR (length (concat es))).
    { induction 1 as [|ends es H _ IH]; [reflexivity|]. simpl. rewrite weight_app, IH, app_length, plus_INR. f_equal.
      clear IH. unfold weight, mids. induction H as [|pq ends E _ IH]; [reflexivity|]. simpl length. rewrite S_INR. simpl. simpl in IH. rewrite IH, E. ring. }
    rewrite X by (apply cube_dist; lra). simpl. lra. }
  destruct (@C62_doubled g 1 cube_volu (cube_ends (-4) 1) eq_refl (cube_volu_ends (-4) 1) WT) as (c & p & Ec & (P & HP) & EC).
  destruct (point3_inv P) as (x & y & z & ->).
  assert (A : (ip [0; 0; 1] [x; y; z] <= -3)%R).
  { apply HP; [reflexivity|]. cbv [cube_volu cube_topo cube_ends map hd volus vo_surfind]. intros q I. simpl in I. repeat destruct I as [<- | I]; simpl; lra || contradiction. }
  assert (FC : facing_of g 1 1 = 1).
  { unfold facing_of, dot_prod. rewrite Ec, En.
    change (at_ (surfs (gtopo g)) (find su_index (surfs (gtopo g)) 1)) with (Ok (hd (mkSurf 0 false false [] []) (surfs cube_topo))). cbn [bind].
    change (at_ (su_edgeind (hd (mkSurf 0 false false [] []) (surfs cube_topo))) 0) with (Ok 1). cbn [bind].
    change (isearch ed_index (edges (gtopo g)) 1) with (Ok (hd (mkEdge 0 false [] []) (edges cube_topo))). cbn [bind].
    change (at_ (ed_vertind (hd (mkEdge 0 false [] []) (edges cube_topo))) 0) with (Ok 1). cbn [bind].
    change (coord_of g 1) with (Ok [-4; -4; -4]%R). cbn [bind].
    unfold cv_subfrom, with_vec. cbn [elems]. rewrite EC, Nn. cbn [pscale map each]. rewrite dot_ok by reflexivity. simpl in A |- *.
    set (d := ((-4 - 2 * x) * 0 + ((-4 - 2 * y) * 0 + ((-4 - 2 * z) * 1 + 0)))%R).
    assert (D : (2 <= d)%R) by (subst d; lra). destruct (Rlt_dec (Rabs d) dbl_eps) as [L|_].
    - exfalso. rewrite Rabs_pos_eq in L by lra. unfold dbl_eps in L. lra.
    - destruct (Rlt_dec d 0); [exfalso; lra|reflexivity]. }
  assert (O : forall fac, fac 1 1 = 1 -> exists m', orient_faces cube_topo fac = Ok m' /\ nth_error (surfs m') 0 = nth_error (surfs cube_topo) 0).
  { intros fac E. eexists. split; [cbv; rewrite E; reflexivity|]. reflexivity. }
  destruct (O (facing_of g) FC) as [m' [Em Es]]. remember (hd (mkSurf 0 false false [] []) (surfs cube_topo)) as s eqn:Hs.
  exists g, m', s, n, [-4; -4; -4]%R. split; auto. split; auto. split; auto.
  split; [apply nth_error_In with 0%nat; rewrite Es, Hs; reflexivity|]. rewrite Hs.
  split; [reflexivity|]. split; [discriminate|]. split; [exact En|]. split; [left; reflexivity|]. rewrite Nn. split.
  - intros q I. simpl in I. repeat destruct I as [<- | I]; simpl; lra || contradiction.
  - exists [-4; -4; -4 + 1]%R. split; [simpl; auto 10|]. simpl. lra.
Qed.
Print Assumptions C109_direction_refuted.
