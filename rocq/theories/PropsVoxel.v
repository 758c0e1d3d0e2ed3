(** Block grid theorems: C25, C26, C61. *)
From Coq Require Import QArith.
From Verif Require Import Base Containers Mesh SpecMesh Flood Order SpecOrder Voxel SpecVoxel VoxelProofs VoxelFaceProofs FloatQuot FloatQuotProofs.
Set Implicit Arguments.
Open Scope Z_scope.

Lemma upto_numbered ids n : ids = upto (Z.to_nat n) 1 -> 0 <= n -> numbered ids n.
Proof.
  intros -> Hn. assert (H : forall m k j i, nth_error (upto m k) j = Some i -> i = Z.of_nat j + k).
  { induction m as [|m IH]; intros k [|j] i E; cbn [upto nth_error] in E; try discriminate; [inversion E; lia|]. apply IH in E. lia. }
  assert (L : forall m k, length (upto m k) = m) by (induction m; simpl; auto). split; [rewrite L; lia|].
  intros k i E. apply H in E. auto.
Qed.
(** ** C25 *)
(** The grid is the structured mesh when the quotients are exact, for all
    positive dimensions. *)
Theorem C25_exact_quotients nx ny nz : 0 < nx -> 0 < ny -> 0 < nz ->
  structured nx ny nz (block_grid Z.div Z.div (nx, ny, nz)).
Proof.
  intros Hx Hy Hz. set (dim := (nx, ny, nz)). assert (D : nonneg dim) by (simpl; lia). assert (C : has_cells dim) by (simpl; lia).
  destruct (grid_indices dim) as [Ic [Is [Ie Iv]]]. unfold structured.
  assert (Pnv : 0 <= (nx + 1) * (ny + 1) * (nz + 1)) by nia.
  assert (Pne : 0 <= nx * (ny + 1) * (nz + 1) + (nx + 1) * ny * (nz + 1) + (nx + 1) * (ny + 1) * nz) by nia.
  assert (Pns : 0 <= nx * ny * (nz + 1) + nx * (ny + 1) * nz + (nx + 1) * ny * nz) by nia.
  assert (Pnc : 0 <= nx * ny * nz) by nia.
  assert (Ens : rsum (n_surf_dim dim) = nx * ny * (nz + 1) + nx * (ny + 1) * nz + (nx + 1) * ny * nz) by (cbn; ring).
  assert (Ene : rsum (n_edge_dim dim) = nx * (ny + 1) * (nz + 1) + (nx + 1) * ny * (nz + 1) + (nx + 1) * (ny + 1) * nz) by (cbn; ring).
  assert (Env : rprod (radd dim (1, 1, 1)) = (nx + 1) * (ny + 1) * (nz + 1)) by (cbn; ring).
  assert (Enc : rprod dim = nx * ny * nz) by (cbn; ring).
  rewrite Ens in Is. rewrite Ene in Ie. rewrite Env in Iv. rewrite Enc in Ic.
  set (nv := (nx + 1) * (ny + 1) * (nz + 1)) in *.
  set (ne := nx * (ny + 1) * (nz + 1) + (nx + 1) * ny * (nz + 1) + (nx + 1) * (ny + 1) * nz) in *.
  set (ns := nx * ny * (nz + 1) + nx * (ny + 1) * nz + (nx + 1) * ny * nz) in *.
  set (nc := nx * ny * nz) in *. cbv zeta.
  pose proof (grid_connected dim D) as W.
  assert (IN : forall T (idx : T -> Z) l n i, map idx l = upto (Z.to_nat n) 1 -> 0 <= n -> (exists a, In a l /\ idx a = i) -> 1 <= i <= n).
  { intros T idx l n i E Hn [a [Ha <-]]. apply (in_map idx) in Ha. rewrite E in Ha. apply (proj2 (upto_NoDup _ _)) in Ha. lia. }
  do 4 (split; [apply upto_numbered; auto|]).
  destruct W as [U [M X]]. pose proof M as [_ [M2 [_ [M4 [M5 M6]]]]].
  pose proof X as [_ [X2 [X3 [X4 _]]]].
  split; [|split; [|split; [|split; [|split; auto]]]].
  - intros c Hc. destruct (volu_six dim D c Hc) as [L N]. split; [auto|]. split; [auto|]. intros x Hx'.
    assert (HV : VS (block_grid Z.div Z.div dim) (vo_index c) x) by (exists c; auto).
    destruct (Z.eq_dec x 0) as [->|Hn0]; [exfalso; exact (X4 _ HV)|].
    destruct (M6 _ _ HV Hn0) as [s [Hs [Es _]]]. eapply IN; [exact Is|auto|]. eauto.
  - intros s Hs. destruct (surf_sides dim D s C Hs) as [L [N _]]. split; [auto|]. split; [auto|]. intros x Hx'.
    assert (HV : SE (block_grid Z.div Z.div dim) (su_index s) x) by (exists s; auto).
    destruct (Z.eq_dec x 0) as [->|Hn0]; [exfalso; exact (X3 _ HV)|].
    destruct (M4 _ _ HV Hn0) as [e [He [Ee _]]]. eapply IN; [exact Ie|auto|]. eauto.
  - intros s Hs. destruct (surf_sides dim D s C Hs) as [_ [_ [L N]]]. split; [auto|]. split; [auto|]. intros x Hx'.
    assert (HV : SV (block_grid Z.div Z.div dim) (su_index s) x) by (exists s; auto).
    destruct (Z.eq_dec x 0) as [->|Hn0]; [lia|].
    destruct (M5 _ _ HV Hn0) as [v [Hv [Ev _]]]. assert (1 <= x <= nc); [|lia]. eapply IN; [exact Ic|auto|]. eauto.
  - intros e He. destruct (edge_faces dim D e C He) as [_ [_ [L N]]]. split; [auto|]. split; [auto|]. intros x Hx'.
    assert (HV : EV (block_grid Z.div Z.div dim) (ed_index e) x) by (exists e; auto).
    destruct (Z.eq_dec x 0) as [->|Hn0]; [exfalso; exact (X2 _ HV)|].
    destruct (M2 _ _ HV Hn0) as [v [Hv [Ev _]]]. eapply IN; [exact Iv|auto|]. eauto.
Qed.
Print Assumptions C25_exact_quotients.

(** With the quotients the code computes (single and double precision), for all
    grids of up to 2^24 vertices and one row. *)
Theorem C25_grid_partial nx ny nz : 0 < nx -> 0 < ny -> 0 < nz ->
  (nx + 1) * (ny + 1) * (nz + 1) + nx <= 2 ^ 24 ->
  structured nx ny nz (block_grid quot32 quot64 (nx, ny, nz)).
Proof.
  intros Hx Hy Hz H. rewrite block_grid_same; [apply C25_exact_quotients; auto|simpl; lia|apply quot32_exact|apply quot64_exact|exact H].
Qed.
Print Assumptions C25_grid_partial.
Example C25_used : structured 100 120 80 (block_grid quot32 quot64 (100, 120, 80)).
Proof. apply C25_grid_partial; lia. Qed.

(** The dimension of the mesh is the number of directions that have cells. *)
Theorem C25_dimension qf qd nx ny nz : 0 <= nx -> 0 <= ny -> 0 <= nz ->
  meshDim (block_grid qf qd (nx, ny, nz)) = Z.of_nat (length (filter (fun n => 0 <? n) [nx; ny; nz])).
Proof.
  intros Hx Hy Hz. cbn [block_grid meshDim filter]. unfold grid_dim.
  assert (Ev : rsum (n_surf_dim (nx, ny, nz)) = nx * ny * (nz + 1) + nx * (ny + 1) * nz + (nx + 1) * ny * nz)
    by (cbv [rsum n_surf_dim rprod mat_surf radd surf_prop]; cbn [Z.eqb Pos.eqb]; ring).
  assert (Ee : rsum (n_edge_dim (nx, ny, nz)) = (nx + 1) * (ny + 1) * nz + (nx + 1) * ny * (nz + 1) + nx * (ny + 1) * (nz + 1))
    by (cbv [rsum n_edge_dim rprod mat_edge radd edge_prop axis rsub]; cbn [Z.eqb Pos.eqb]; ring).
  rewrite Ev, Ee. clear Ev Ee. cbn [rprod].
  assert (P : forall n, 0 <= n -> n = 0 \/ 0 < n) by (intros; lia).
  destruct (P nx Hx) as [->|X], (P ny Hy) as [->|Y], (P nz Hz) as [->|W];
    repeat match goal with
    | |- context [Z.eqb ?a 0] => first [replace (a =? 0) with false by (symmetry; apply Z.eqb_neq; nia)
                                       |replace (a =? 0) with true by (symmetry; apply Z.eqb_eq; nia)]; cbn [negb]
    | |- context [Z.ltb 0 ?a] => first [replace (0 <? a) with true by (symmetry; apply Z.ltb_lt; lia)
                                       |replace (0 <? a) with false by (symmetry; apply Z.ltb_ge; lia)]
    end; reflexivity.
Qed.
Print Assumptions C25_dimension.
Example C25_dimension_used : meshDim (block_grid quot32 quot64 (7, 5, 0)) = 2.
Proof. rewrite C25_dimension; [reflexivity|lia|lia|lia]. Qed.

(** Beyond that some cells list the wrong faces.  In a grid of 300 x 300 x 300
    cells, cell 16777500 lists face 16777800, which is a face of cells 16777800
    and 16687800. *)
Theorem C25_large_refuted :
  exists nx ny nz, 0 < nx /\ 0 < ny /\ 0 < nz /\ 3 * (nx + 1) * (ny + 1) * (nz + 1) < 2 ^ 31 /\
    ~ mutual (block_grid quot32 quot64 (nx, ny, nz)).
Proof.
  exists 300, 300, 300. do 4 (split; [lia|]). intros [_ [_ [_ [_ [_ M]]]]].
  assert (HV : VS (block_grid quot32 quot64 (300, 300, 300)) 16777500 16777800).
  { exists (block_volu quot32 quot64 (300, 300, 300) 16777499). split; [|split; [reflexivity|]].
    - cbn [block_grid volus]. apply In_all. exists 16777499. split; [cbn; lia|reflexivity].
    - assert (E : vo_surfind (block_volu quot32 quot64 (300, 300, 300) 16777499) =
                  [16777800; 43923600; 71013725; 16867800; 43923900; 71013726]) by (vm_compute; reflexivity).
      rewrite E. left. reflexivity. }
  destruct (M _ _ HV) as [s [Hs [Es Hin]]]; [lia|].
  cbn [block_grid surfs] in Hs. apply In_all in Hs. destruct Hs as [k [_ ->]].
  assert (Ek : su_index (block_surf quot64 (300, 300, 300) k) = k + 1) by (unfold block_surf; destruct (in_plane _); reflexivity).
  assert (k = 16777799) by lia. subst k.
  assert (E : su_voluind (block_surf quot64 (300, 300, 300) 16777799) = [16777800; 16687800]) by (vm_compute; reflexivity).
  rewrite E in Hin. destruct Hin as [H|[H|[]]]; discriminate.
Qed.
Print Assumptions C25_large_refuted.

(** The four edges of each face, in the order in which they are listed, go around
    it through four different vertices, and OrderEdges succeeds on it. *)
Theorem C25_faces_partial nx ny nz table s : 0 <= nx -> 0 <= ny -> 0 <= nz ->
  (nx + 1) * (ny + 1) * (nz + 1) + nx <= 2 ^ 24 ->
  (forall l, is_table l (table l)) ->
  let m := block_grid quot32 quot64 (nx, ny, nz) in
  In s (surfs m) ->
  (exists corners, polygon (edge_joins m) (su_edgeind s) corners /\ NoDup corners /\ length corners = 4%nat) /\
  exists l, surf_order m table (su_edgeind s) = Ok (ordered, l) /\ Permutation l (su_edgeind s).
Proof.
  intros Hx Hy Hz H Ht m. unfold m. assert (D : nonneg (nx, ny, nz)) by (simpl; lia).
  rewrite block_grid_same by first [exact D|apply quot32_exact|apply quot64_exact|exact H].
  intros Hs. split.
  - pose proof Hs as Hs'. apply (surfs_are _ D) in Hs'. destruct Hs' as [k [q [Hk [Hq ->]]]].
    destruct (face_quad _ D _ Hk Hq) as [L [_ [P [N _]]]]. exists (face_corners (nx, ny, nz) k q). split; auto. split; auto.
    destruct P as [P _]. rewrite P. auto.
  - destruct (face_ordered _ D table s Ht Hs) as [l [E [_ P]]]. eauto.
Qed.
Print Assumptions C25_faces_partial.
(** A flat grid (nz = 0) meets the hypotheses too. *)
Example C25_faces_used : exists s, In s (surfs (block_grid quot32 quot64 (7, 5, 0))).
Proof. eexists. cbn [block_grid surfs]. apply In_all. exists 3. split; [vm_compute; split; [discriminate|reflexivity]|reflexivity]. Qed.

(** ** C26 *)
(** Double precision: the position of every number in every box with fewer than
    2^31 elements is the unique one. *)
Theorem C26_double dx dy dz n : 0 < dx -> 0 < dy -> 0 < dz -> dx * dy * dz < 2 ^ 31 -> 0 <= n < dx * dy * dz ->
  exists i j k, position quot64 quot64 (dx, dy, dz) n = (i, j, k) /\
    0 <= i < dx /\ 0 <= j < dy /\ 0 <= k < dz /\ n = i + j * dx + k * dx * dy /\
    forall i' j' k', 0 <= i' < dx -> 0 <= j' < dy -> 0 <= k' < dz -> n = i' + j' * dx + k' * dx * dy -> i' = i /\ j' = j /\ k' = k.
Proof.
  intros Hx Hy Hz Hb Hn. assert (D : nonneg (dx, dy, dz)) by (simpl; lia).
  assert (0 < dx * dy) by nia. assert (dx * dy <= dx * dy * dz) by nia. assert (dx <= dx * dy) by nia.
  rewrite position_same; [|auto|exact Hn|].
  2:{ split; apply quot64_exact; lia. }
  destruct (@enc_dec (dx, dy, dz) n D Hn) as [B E].
  destruct (position Z.div Z.div (dx, dy, dz) n) as [[i j] k] eqn:EP. exists i, j, k. split; auto.
  rewrite enc_form in E. simpl in B. do 3 (split; [lia|]). split; [rewrite <- E; ring|].
  intros i' j' k' Hi' Hj' Hk' En.
  assert (Eq : (i', j', k') = (i, j, k)).
  { apply (@enc_inj (dx, dy, dz)); [simpl; lia|simpl; lia|]. rewrite !enc_form, E, En. ring. }
  inversion Eq. auto.
Qed.
Print Assumptions C26_double.
(** Single precision, used for the second index of cells and vertices: the
    position is the unique one up to number 2^24 - dx. *)
Theorem C26_single_partial dx dy dz n : 0 < dx -> 0 < dy -> 0 < dz -> dx * dy * dz < 2 ^ 31 -> 0 <= n < dx * dy * dz ->
  n + dx <= 2 ^ 24 ->
  exists i j k, position quot64 quot32 (dx, dy, dz) n = (i, j, k) /\
    0 <= i < dx /\ 0 <= j < dy /\ 0 <= k < dz /\ n = i + j * dx + k * dx * dy /\
    forall i' j' k', 0 <= i' < dx -> 0 <= j' < dy -> 0 <= k' < dz -> n = i' + j' * dx + k' * dx * dy -> i' = i /\ j' = j /\ k' = k.
Proof.
  intros Hx Hy Hz Hb Hn Hs.
  assert (0 < dx * dy) by nia. assert (dx * dy <= dx * dy * dz) by nia. assert (dx <= dx * dy) by nia.
  replace (position quot64 quot32 (dx, dy, dz) n) with (position quot64 quot64 (dx, dy, dz) n); [apply C26_double; auto|].
  unfold position. rewrite quot32_exact, quot64_exact by lia. reflexivity.
Qed.
Print Assumptions C26_single_partial.
Example C26_used : position quot64 quot32 (200, 100, 300) 1234567 = (167, 72, 61).
Proof. vm_compute. reflexivity. Qed.
(** Beyond, the second index can be off by one: the number with indices (299, 124,
    186) decodes to (299, 125, 186). *)
Theorem C26_single_refuted :
  exists dx dy dz i j k, 0 < dx /\ 0 < dy /\ 0 < dz /\ dx * dy * dz < 2 ^ 31 /\ 0 <= i < dx /\ 0 <= j < dy /\ 0 <= k < dz /\
    position quot64 quot32 (dx, dy, dz) (i + j * dx + k * dx * dy) <> (i, j, k).
Proof.
  exists 300, 300, 300, 299, 124, 186. do 7 (split; [lia|]). vm_compute. discriminate.
Qed.
Print Assumptions C26_single_refuted.

(** ** C61 *)
(** Coordinates, as exact quotients: different vertices are different points of
    the unit cube and the ends of an edge are one cell width apart along an axis. *)
Theorem C61_coordinates_partial nx ny nz : 0 <= nx -> 0 <= ny -> 0 <= nz ->
  (nx + 1) * (ny + 1) * (nz + 1) + nx <= 2 ^ 24 ->
  let at_vertex v := point (block_coord quot32 quot64 (nx, ny, nz) (v - 1)) in
  let nv := (nx + 1) * (ny + 1) * (nz + 1) in
  (forall v, 1 <= v <= nv -> in_unit_cube (at_vertex v)) /\
  (forall v w, 1 <= v <= nv -> 1 <= w <= nv -> same_point (at_vertex v) (at_vertex w) -> v = w) /\
  (forall e, In e (edges (block_grid quot32 quot64 (nx, ny, nz))) ->
    exists a b, ed_vertind e = [a; b] /\ one_cell_along nx ny nz (at_vertex a) (at_vertex b)).
Proof.
  intros Hx Hy Hz H at_vertex nv. assert (D : nonneg (nx, ny, nz)) by (simpl; lia).
  assert (DV : nonneg (nx + 1, ny + 1, nz + 1)) by (simpl; lia).
  assert (PC : forall v, 1 <= v <= nv -> exists i j k, position Z.div Z.div (nx + 1, ny + 1, nz + 1) (v - 1) = (i, j, k) /\
     0 <= i <= nx /\ 0 <= j <= ny /\ 0 <= k <= nz /\ v = vid (nx, ny, nz) (i, j, k) /\
     at_vertex v = point ((i, j, k), (Z.max nx 1, Z.max ny 1, Z.max nz 1))).
  { intros v Hv. assert (Hn : 0 <= v - 1 < rprod (nx + 1, ny + 1, nz + 1)) by (cbn [rprod]; unfold nv in Hv; lia).
    destruct (@enc_dec _ _ DV Hn) as [B E].
    unfold at_vertex, block_coord. cbn [radd]. rewrite (@position_same quot64 quot32); [|auto|exact Hn|].
    - destruct (position Z.div Z.div (nx + 1, ny + 1, nz + 1) (v - 1)) as [[i j] k]. exists i, j, k. simpl in B.
      split; auto. do 3 (split; [lia|]). split; auto. unfold vid. cbn [radd]. lia.
    - assert (0 < (nx + 1) * (ny + 1)) by nia. assert ((nx + 1) * (ny + 1) <= nv) by (unfold nv; nia).
      assert (nx + 1 <= (nx + 1) * (ny + 1)) by nia. fold nv in H.
      split; [apply quot32_exact|apply quot64_exact]; lia. }
  assert (VR : forall p, box (nx + 1, ny + 1, nz + 1) p -> 1 <= vid (nx, ny, nz) p <= nv).
  { intros p Hp. apply enc_range in Hp. unfold vid, nv. cbn [radd rprod] in *. lia. }
  assert (UQ : forall i n, 0 <= i <= n -> (0 <= i # Z.to_pos (Z.max n 1) <= 1)%Q).
  { intros i n Hi. unfold Qle. simpl. rewrite Z2Pos.id by lia. lia. }
  assert (EQ : forall i j n, (i # Z.to_pos (Z.max n 1) == j # Z.to_pos (Z.max n 1))%Q -> i = j).
  { intros i j n E. unfold Qeq in E. simpl in E. nia. }
  assert (AQ : forall i n, (i + 1 # Z.to_pos (Z.max n 1) == (i # Z.to_pos (Z.max n 1)) + (1 # Z.to_pos (Z.max n 1)))%Q).
  { intros i n. rewrite <- Qinv_plus_distr. reflexivity. }
  split; [|split].
  - intros v Hv. destruct (PC v Hv) as [i [j [k [_ [Hi [Hj [Hk [_ ->]]]]]]]]. simpl. auto.
  - intros v w Hv Hw. destruct (PC v Hv) as [i [j [k [_ [Hi [Hj [Hk [Ev ->]]]]]]]].
    destruct (PC w Hw) as [i' [j' [k' [_ [Hi' [Hj' [Hk' [Ew ->]]]]]]]]. simpl. intros [E1 [E2 E3]].
    apply EQ in E1. apply EQ in E2. apply EQ in E3. congruence.
  - intros e He. rewrite block_grid_same in He by first [exact D|apply quot32_exact|apply quot64_exact|exact H].
    apply (edges_are _ D) in He. destruct He as [a [p [Ha [Hp ->]]]].
    destruct (edge_ends _ D _ Ha Hp) as [B1 B2]. cbn [radd] in B1. change (radd (nx, ny, nz) (1, 1, 1)) with (nx + 1, ny + 1, nz + 1) in B2.
    eexists _, _. split; [reflexivity|].
    destruct (PC _ (VR _ B1)) as [i [j [k [_ [Hi [Hj [Hk [Ev ->]]]]]]]].
    destruct (PC _ (VR _ B2)) as [i' [j' [k' [_ [Hi' [Hj' [Hk' [Ew ->]]]]]]]].
    apply vid_inj in Ev; [|exact B1|simpl; lia]. apply vid_inj in Ew; [|exact B2|simpl; lia]. subst p.
    destruct Ha as [-> | [-> | -> ]]; simpl in Ew; inversion Ew; subst; unfold one_cell_along, point; rewrite ?Z.add_0_r.
    + left. repeat split; try reflexivity. apply AQ.
    + right. left. repeat split; try reflexivity. apply AQ.
    + right. right. repeat split; try reflexivity. apply AQ.
Qed.
Print Assumptions C61_coordinates_partial.
Example C61_used : point (block_coord quot32 quot64 (4, 3, 0) 7) = (2 # 4, 1 # 3, 0 # 1)%Q /\
  exists e, In e (edges (block_grid quot32 quot64 (4, 3, 0))) /\ ed_vertind e = [7; 8].
Proof.
  split; [vm_compute; reflexivity|].
  exists (block_edge quot64 (4, 3, 0) 5). split; [|vm_compute; reflexivity]. cbn [block_grid edges]. apply In_all. exists 5. split; [|reflexivity].
  vm_compute. split; [discriminate|reflexivity].
Qed.
