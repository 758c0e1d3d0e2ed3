(** Proofs about block grids. *)
From Verif Require Import Base Containers Mesh SpecMesh Flood MeshProofs Voxel.
Set Implicit Arguments.
Open Scope Z_scope.

(** ** Numbering of a box *)
Definition nonneg (d : row) : Prop := let '(d0, d1, d2) := d in 0 <= d0 /\ 0 <= d1 /\ 0 <= d2.
Definition box (d p : row) : Prop :=
  let '(d0, d1, d2) := d in let '(p0, p1, p2) := p in 0 <= p0 < d0 /\ 0 <= p1 < d1 /\ 0 <= p2 < d2.
Definition enc (d p : row) : Z := dot p (inc_pos d).
Notation dec := (position Z.div Z.div).

Lemma enc_form d0 d1 d2 p0 p1 p2 : enc (d0, d1, d2) (p0, p1, p2) = p0 + d0 * (p1 + d1 * p2).
Proof. unfold enc, dot, inc_pos, cumprod. ring. Qed.
Lemma two_digits a b d e : 0 <= a < d -> 0 <= b < e -> 0 <= a + d * b < d * e.
Proof. nia. Qed.
Lemma enc_range d p : box d p -> 0 <= enc d p < rprod d.
Proof.
  destruct d as [[d0 d1] d2], p as [[p0 p1] p2]. intros [H0 [H1 H2]]. rewrite enc_form. simpl.
  rewrite <- Z.mul_assoc. apply two_digits; auto. apply two_digits; auto.
Qed.
Lemma digit0 a b d : 0 <= a < d -> (a + d * b) mod d = a.
Proof. intros H. rewrite Z.mul_comm, Z.mod_add by lia. apply Z.mod_small; auto. Qed.
Lemma digit1 a b d : 0 <= a < d -> (a + d * b) / d = b.
Proof. intros H. rewrite Z.mul_comm, Z.div_add by lia. rewrite Z.div_small; lia. Qed.
Lemma dec_enc d p : box d p -> dec d (enc d p) = p.
Proof.
  destruct d as [[d0 d1] d2], p as [[p0 p1] p2]. intros [H0 [H1 H2]]. rewrite enc_form. unfold position.
  rewrite <- Z.div_div by lia. rewrite digit0, !digit1 by auto. rewrite digit0 by auto. rewrite Z.mod_small; auto.
Qed.
Lemma enc_dec d n : nonneg d -> 0 <= n < rprod d -> box d (dec d n) /\ enc d (dec d n) = n.
Proof.
  destruct d as [[d0 d1] d2]. intros [H0 [H1 H2]] Hn. simpl in Hn.
  assert (0 < d0) by nia. assert (0 < d1) by nia. assert (0 < d2) by nia.
  unfold position. rewrite <- Z.div_div by lia.
  assert (A : 0 <= n / d0) by (apply Z.div_pos; lia).
  assert (B : n / d0 < d1 * d2) by (apply Z.div_lt_upper_bound; nia).
  assert (C : 0 <= n / d0 / d1) by (apply Z.div_pos; lia).
  assert (D : n / d0 / d1 < d2) by (apply Z.div_lt_upper_bound; nia).
  split.
  - unfold box. rewrite (Z.mod_small (n / d0 / d1)) by lia.
    split; [apply Z.mod_pos_bound; lia|]. split; [apply Z.mod_pos_bound; lia|lia].
  - rewrite enc_form, (Z.mod_small (n / d0 / d1)) by lia.
    pose proof (Z.div_mod n d0). pose proof (Z.div_mod (n / d0) d1). nia.
Qed.
Lemma enc_inj d p q : box d p -> box d q -> enc d p = enc d q -> p = q.
Proof. intros Hp Hq E. rewrite <- (@dec_enc _ _ Hp), <- (@dec_enc _ _ Hq), E. reflexivity. Qed.

(** ** Three boxes one after the other *)
Definition plane (j : Z) : Prop := j = 0 \/ j = 1 \/ j = 2.
Lemma plane_of_cumsum n0 n1 n2 k : 0 <= n0 -> 0 <= n1 -> 0 <= n2 -> 0 <= k < n0 + n1 + n2 ->
  let j := not_above (cumsum (n0, n1, n2)) k in
  plane j /\ rget (incr (n0, n1, n2)) j <= k < rget (incr (n0, n1, n2)) j + rget (n0, n1, n2) j.
Proof.
  intros H0 H1 H2 Hk. unfold plane, not_above, cumsum, incr, rget. cbn zeta.
  destruct (Z.leb_spec n0 k), (Z.leb_spec (n0 + n1) k), (Z.leb_spec (n0 + n1 + n2) k); simpl; lia.
Qed.
Lemma plane_of_incr n0 n1 n2 k : 0 <= n0 -> 0 <= n1 -> 0 <= n2 -> 0 <= k < n0 + n1 + n2 ->
  not_above (incr (n0, n1, n2)) k - 1 = not_above (cumsum (n0, n1, n2)) k.
Proof.
  intros H0 H1 H2 Hk. unfold incr, cumsum, not_above. rewrite !Z.add_0_l.
  destruct (Z.leb_spec n0 k), (Z.leb_spec (n0 + n1) k), (Z.leb_spec (n0 + n1 + n2) k), (Z.leb_spec 0 k); lia.
Qed.
Lemma plane_unique n0 n1 n2 j k : 0 <= n0 -> 0 <= n1 -> 0 <= n2 -> plane j ->
  rget (incr (n0, n1, n2)) j <= k < rget (incr (n0, n1, n2)) j + rget (n0, n1, n2) j ->
  not_above (cumsum (n0, n1, n2)) k = j /\ 0 <= k < n0 + n1 + n2.
Proof.
  intros H0 H1 H2 Hj Hk. unfold not_above, cumsum, incr, rget in *.
  destruct Hj as [-> | [-> | -> ]]; simpl in *;
    destruct (Z.leb_spec n0 k), (Z.leb_spec (n0 + n1) k), (Z.leb_spec (n0 + n1 + n2) k); lia.
Qed.

Section Family.
Variable mat : Z -> row.
Hypothesis mat_ok : forall j, plane j -> nonneg (mat j).
Let n : row := (rprod (mat 0), rprod (mat 1), rprod (mat 2)).
Definition fnum (j : Z) (p : row) : Z := enc (mat j) p + rget (incr (rprod (mat 0), rprod (mat 1), rprod (mat 2))) j + 1.
Lemma rprod_nonneg d : nonneg d -> 0 <= rprod d.
Proof. destruct d as [[d0 d1] d2]. simpl. intros [A [B C]]. nia. Qed.
Lemma rget_n j : plane j -> rget n j = rprod (mat j).
Proof. intros [-> | [-> | -> ]]; reflexivity. Qed.
Lemma counts : 0 <= rprod (mat 0) /\ 0 <= rprod (mat 1) /\ 0 <= rprod (mat 2).
Proof. repeat split; apply rprod_nonneg, mat_ok; unfold plane; auto. Qed.
Lemma fnum_find j p : plane j -> box (mat j) p ->
  not_above (cumsum n) (fnum j p - 1) = j /\ dec (mat j) (fnum j p - 1 - rget (incr n) j) = p /\ 1 <= fnum j p <= rsum n.
Proof.
  intros Hj Hp. pose proof (@enc_range _ _ Hp) as R. destruct counts as [C0 [C1 C2]].
  destruct (@plane_unique _ _ _ j (fnum j p - 1) C0 C1 C2 Hj) as [A B].
  { fold n. rewrite rget_n by auto. unfold fnum. fold n. lia. }
  split; [exact A|]. split; [|simpl; lia].
  replace (fnum j p - 1 - rget (incr n) j) with (enc (mat j) p) by (unfold fnum; fold n; ring). apply dec_enc; auto.
Qed.
Lemma fnum_inj j p k q : plane j -> plane k -> box (mat j) p -> box (mat k) q -> fnum j p = fnum k q -> j = k /\ p = q.
Proof.
  intros Hj Hk Hp Hq E. destruct (@fnum_find _ _ Hj Hp) as [A [B _]]. destruct (@fnum_find _ _ Hk Hq) as [A' [B' _]].
  rewrite E in A, B. assert (j = k) by congruence. subst k. split; auto. congruence.
Qed.
Lemma fnum_all k : 0 <= k < rsum n -> let j := not_above (cumsum n) k in let p := dec (mat j) (k - rget (incr n) j) in
  plane j /\ box (mat j) p /\ k + 1 = fnum j p.
Proof.
  intros Hk. destruct counts as [C0 [C1 C2]]. cbn zeta.
  destruct (@plane_of_cumsum _ _ _ _ C0 C1 C2 Hk) as [Hj Hr]. fold n in Hj, Hr. rewrite rget_n in Hr by auto.
  set (j := not_above (cumsum n) k) in *.
  destruct (@enc_dec (mat j) (k - rget (incr n) j)) as [A B]; [auto|lia|].
  split; auto. split; auto. unfold fnum. fold n. rewrite B. ring.
Qed.
End Family.

(** ** The elements of the grid *)
Lemma In_all {A} (f : Z -> A) n a : In a (map f (upto (Z.to_nat n) 0)) <-> exists k, 0 <= k < n /\ a = f k.
Proof.
  rewrite in_map_iff.
  assert (H : forall m k x, In x (upto m k) <-> k <= x < k + Z.of_nat m).
  { induction m as [|m IH]; intros k x; simpl; [lia|]. rewrite IH. lia. }
  split.
  - intros [x [<- Hx]]. apply H in Hx. exists x. split; auto. lia.
  - intros [k [Hk ->]]. exists k. split; auto. apply H. lia.
Qed.

Section Grid.
Variable dim : row.
Hypothesis dim_ok : nonneg dim.
Notation grid := (block_grid Z.div Z.div dim).
Let dimv : row := radd dim (1, 1, 1).
Definition vid (p : row) : Z := enc (radd dim (1, 1, 1)) p + 1.
Definition cid (p : row) : Z := enc dim p + 1.
Definition eid := fnum (mat_edge dim).
Definition sid := fnum (mat_surf dim).
Lemma edge_mats j : plane j -> nonneg (mat_edge dim j).
Proof. destruct dim as [[d0 d1] d2]. simpl in dim_ok. intros [-> | [-> | -> ]]; simpl; lia. Qed.
Lemma surf_mats j : plane j -> nonneg (mat_surf dim j).
Proof. destruct dim as [[d0 d1] d2]. simpl in dim_ok. intros [-> | [-> | -> ]]; simpl; lia. Qed.
Lemma vert_mat : nonneg dimv.
Proof. unfold dimv. destruct dim as [[d0 d1] d2]. simpl in *. lia. Qed.

Definition volu_at (p : row) : volu :=
  mkVolu (cid p) false [sid 0 p; sid 1 p; sid 2 p; sid 0 (radd p (surf_prop 0)); sid 1 (radd p (surf_prop 1)); sid 2 (radd p (surf_prop 2))].
Definition surf_at (j : Z) (p : row) : surf :=
  let (c0, c1) := in_plane j in
  mkSurf (sid j p) false false
    [if any_ge p dim then 0 else cid p; if any_neg (rsub p (surf_prop j)) then 0 else cid (rsub p (surf_prop j))]
    [eid c0 p; eid c1 (radd p (axis c0)); eid c0 (radd p (axis c1)); eid c1 p].
Definition edge_cands (j : Z) (p : row) : list (Z * row) :=
  filter (fun jp => negb (out_of (snd jp) (mat_surf dim (fst jp)) || (2 - fst jp =? j)))
    [(0, p); (1, p); (2, p); (0, rsub p (edge_mask j 0)); (1, rsub p (edge_mask j 1)); (2, rsub p (edge_mask j 2))].
Definition edge_at (j : Z) (p : row) : edge :=
  let l := map (fun jp => sid (fst jp) (snd jp)) (edge_cands j p) in
  mkEdge (eid j p) false (l ++ repeat 0 (2 - length l)) [vid p; vid (radd p (axis j))].
Definition vert_cands (p : row) : list (Z * row) :=
  filter (fun jp => negb (out_of (snd jp) (mat_edge dim (fst jp))))
    [(0, p); (1, p); (2, p); (0, rsub p (axis 0)); (1, rsub p (axis 1)); (2, rsub p (axis 2))].
Definition vert_at (p : row) : vert := mkVert (vid p) false (map (fun jp => eid (fst jp) (snd jp)) (vert_cands p)).

Lemma volus_are v : In v (volus grid) <-> exists p, box dim p /\ v = volu_at p.
Proof.
  cbn [block_grid volus]. rewrite In_all. split.
  - intros [k [Hk ->]]. destruct (@enc_dec dim _ dim_ok Hk) as [A B]. exists (dec dim k). split; auto.
    unfold volu_at, cid. rewrite B. reflexivity.
  - intros [p [Hp ->]]. exists (enc dim p). split; [apply enc_range; auto|].
    unfold block_volu, volu_at, cid. cbn [map app]. rewrite dec_enc by auto. reflexivity.
Qed.
Lemma verts_are v : In v (verts grid) <-> exists p, box dimv p /\ v = vert_at p.
Proof.
  cbn [block_grid verts]. rewrite In_all. split.
  - intros [k [Hk ->]]. destruct (@enc_dec dimv _ vert_mat Hk) as [A B]. exists (dec dimv k). split; auto.
    unfold vert_at, vid. fold dimv. rewrite B. reflexivity.
  - intros [p [Hp ->]]. exists (enc dimv p). split; [apply enc_range; auto|].
    unfold block_vert, vert_at, vid. fold dimv. rewrite dec_enc by auto. reflexivity.
Qed.
Lemma surfs_are s : In s (surfs grid) <-> exists j p, plane j /\ box (mat_surf dim j) p /\ s = surf_at j p.
Proof.
  cbn [block_grid surfs]. rewrite In_all. split.
  - intros [k [Hk ->]]. destruct (@fnum_all _ surf_mats _ Hk) as [A [B C]]. eexists _, _. split; [exact A|]. split; [exact B|].
    unfold surf_at, block_surf, sid. fold sid. rewrite C. reflexivity.
  - intros [j [p [Hj [Hp ->]]]]. exists (sid j p - 1). destruct (@fnum_find _ surf_mats _ _ Hj Hp) as [A [B C]].
    fold sid in A, B, C. split; [unfold n_surf_dim; lia|].
    unfold block_surf. unfold n_surf_dim. rewrite A, B. unfold surf_at. destruct (in_plane j). rewrite Z.sub_add. reflexivity.
Qed.
Lemma far_end j p : plane j -> rsub (radd p (1, 1, 1)) (edge_prop j) = radd p (axis j).
Proof. destruct p as [[p0 p1] p2]. intros [-> | [-> | -> ]]; cbn; (apply f_equal2; [apply f_equal2|]); lia. Qed.
Lemma edges_are e : In e (edges grid) <-> exists j p, plane j /\ box (mat_edge dim j) p /\ e = edge_at j p.
Proof.
  destruct (counts _ edge_mats) as [C0 [C1 C2]].
  cbn [block_grid edges]. rewrite In_all. split.
  - intros [k [Hk ->]]. destruct (@fnum_all _ edge_mats _ Hk) as [A [B C]]. eexists _, _. split; [exact A|]. split; [exact B|].
    unfold edge_at, block_edge. unfold n_edge_dim. rewrite plane_of_incr by auto. rewrite far_end by auto.
    unfold eid. rewrite <- C. reflexivity.
  - intros [j [p [Hj [Hp ->]]]]. exists (eid j p - 1). destruct (@fnum_find _ edge_mats _ _ Hj Hp) as [A [B C]].
    fold eid in A, B, C. split; [unfold n_edge_dim; lia|].
    unfold block_edge. unfold n_edge_dim. rewrite plane_of_incr; auto; [|cbn [rsum] in C; lia]. rewrite A, B, far_end by auto.
    rewrite Z.sub_add. reflexivity.
Qed.

(** ** References *)
Lemma out_box d p : negb (out_of p d) = true <-> box d p.
Proof.
  destruct d as [[d0 d1] d2], p as [[p0 p1] p2]. unfold out_of, any_neg, any_ge, box.
  rewrite negb_true_iff, !orb_false_iff, !Z.ltb_ge, !Z.leb_gt. lia.
Qed.
Lemma row_eq (a0 a1 a2 b0 b1 b2 : Z) : a0 = b0 -> a1 = b1 -> a2 = b2 -> (a0, a1, a2) = (b0, b1, b2).
Proof. congruence. Qed.
Lemma sub_add p a : radd (rsub p a) a = p.
Proof. destruct p as [[? ?] ?], a as [[? ?] ?]. simpl. apply row_eq; lia. Qed.
Lemma add_sub p a : rsub (radd p a) a = p.
Proof. destruct p as [[? ?] ?], a as [[? ?] ?]. simpl. apply row_eq; lia. Qed.
Lemma sub0 p : rsub p (0, 0, 0) = p.
Proof. destruct p as [[? ?] ?]. simpl. apply row_eq; lia. Qed.

Lemma vert_cands_In p j q : In (j, q) (vert_cands p) <-> plane j /\ box (mat_edge dim j) q /\ (q = p \/ q = rsub p (axis j)).
Proof.
  unfold vert_cands. rewrite filter_In, out_box. cbn [fst snd]. unfold plane.
  assert (K : In (j, q) [(0, p); (1, p); (2, p); (0, rsub p (axis 0)); (1, rsub p (axis 1)); (2, rsub p (axis 2))] <->
    (j = 0 \/ j = 1 \/ j = 2) /\ (q = p \/ q = rsub p (axis j))).
  { cbn [In]. split.
    - intros [E|[E|[E|[E|[E|[E|[]]]]]]]; inversion E; subst; auto.
    - intros [[-> | [-> | -> ]] [-> | -> ]]; tauto. }
  rewrite K. tauto.
Qed.
Lemma edge_cands_In j p k q : In (k, q) (edge_cands j p) <->
  plane k /\ box (mat_surf dim k) q /\ 2 - k <> j /\ (q = p \/ q = rsub p (edge_mask j k)).
Proof.
  unfold edge_cands. rewrite filter_In. cbn [fst snd]. rewrite negb_orb, andb_true_iff, out_box, negb_true_iff, Z.eqb_neq. unfold plane.
  assert (K : In (k, q) [(0, p); (1, p); (2, p); (0, rsub p (edge_mask j 0)); (1, rsub p (edge_mask j 1)); (2, rsub p (edge_mask j 2))] <->
    (k = 0 \/ k = 1 \/ k = 2) /\ (q = p \/ q = rsub p (edge_mask j k))).
  { cbn [In]. split.
    - intros [E|[E|[E|[E|[E|[E|[]]]]]]]; inversion E; subst; auto.
    - intros [[-> | [-> | -> ]] [-> | -> ]]; tauto. }
  rewrite K. tauto.
Qed.

Lemma VE_is v e : VE grid v e <-> exists p j q, box dimv p /\ v = vid p /\ plane j /\ box (mat_edge dim j) q /\
  e = eid j q /\ (q = p \/ q = rsub p (axis j)).
Proof.
  unfold VE, lists. split.
  - intros [a [Ha [<- He]]]. apply verts_are in Ha. destruct Ha as [p [Hp ->]].
    cbn [vert_at ve_edgeind ve_index] in *. apply in_map_iff in He. destruct He as [[j q] [<- Hc]]. apply vert_cands_In in Hc.
    exists p, j, q. cbn [fst snd]. tauto.
  - intros [p [j [q [Hp [-> [Hj [Hq [-> Hpq]]]]]]]]. exists (vert_at p). split; [apply verts_are; eauto|]. split; auto.
    cbn [vert_at ve_edgeind]. apply in_map_iff. exists (j, q). split; auto. apply vert_cands_In. auto.
Qed.
Lemma EV_is e v : EV grid e v <-> exists j p, plane j /\ box (mat_edge dim j) p /\ e = eid j p /\
  (v = vid p \/ v = vid (radd p (axis j))).
Proof.
  unfold EV, lists. split.
  - intros [a [Ha [<- He]]]. apply edges_are in Ha. destruct Ha as [j [p [Hj [Hp ->]]]].
    cbn [edge_at ed_vertind ed_index In] in *. exists j, p. intuition.
  - intros [j [p [Hj [Hp [-> Hv]]]]]. exists (edge_at j p). split; [apply edges_are; eauto|]. split; auto.
    cbn [edge_at ed_vertind In]. intuition.
Qed.
Lemma ES_is e s : s <> 0 -> (ES grid e s <-> exists j p k q, plane j /\ box (mat_edge dim j) p /\ e = eid j p /\
  plane k /\ box (mat_surf dim k) q /\ s = sid k q /\ 2 - k <> j /\ (q = p \/ q = rsub p (edge_mask j k))).
Proof.
  intros Hs. unfold ES, lists. split.
  - intros [a [Ha [<- He]]]. apply edges_are in Ha. destruct Ha as [j [p [Hj [Hp ->]]]].
    cbn [edge_at ed_surfind ed_index] in *. apply in_app_iff in He. destruct He as [He|He]; [|apply repeat_spec in He; contradiction].
    apply in_map_iff in He. destruct He as [[k q] [<- Hc]]. apply edge_cands_In in Hc. exists j, p, k, q. cbn [fst snd]. tauto.
  - intros [j [p [k [q [Hj [Hp [-> [Hk [Hq [-> [Hne Hpq]]]]]]]]]]]. exists (edge_at j p). split; [apply edges_are; eauto|]. split; auto.
    cbn [edge_at ed_surfind]. apply in_app_iff. left. apply in_map_iff. exists (k, q). split; auto. apply edge_cands_In. auto.
Qed.
Definition face_edges (k : Z) (q : row) : list (Z * row) :=
  let (c0, c1) := in_plane k in [(c0, q); (c1, radd q (axis c0)); (c0, radd q (axis c1)); (c1, q)].
Lemma surf_at_edgeind k q : su_edgeind (surf_at k q) = map (fun jp => eid (fst jp) (snd jp)) (face_edges k q).
Proof. unfold surf_at, face_edges. destruct (in_plane k). reflexivity. Qed.
Lemma surf_at_index k q : su_index (surf_at k q) = sid k q.
Proof. unfold surf_at. destruct (in_plane k). reflexivity. Qed.
Lemma surf_at_voluind k q : su_voluind (surf_at k q) =
  [if any_ge q dim then 0 else cid q; if any_neg (rsub q (surf_prop k)) then 0 else cid (rsub q (surf_prop k))].
Proof. unfold surf_at. destruct (in_plane k). reflexivity. Qed.
Lemma SE_is s e : SE grid s e <-> exists k q j p, plane k /\ box (mat_surf dim k) q /\ s = sid k q /\
  In (j, p) (face_edges k q) /\ e = eid j p.
Proof.
  unfold SE, lists. split.
  - intros [a [Ha [<- He]]]. apply surfs_are in Ha. destruct Ha as [k [q [Hk [Hq ->]]]].
    rewrite surf_at_edgeind in He. rewrite surf_at_index. apply in_map_iff in He. destruct He as [[j p] [<- Hc]].
    exists k, q, j, p. auto.
  - intros [k [q [j [p [Hk [Hq [-> [Hc ->]]]]]]]]. exists (surf_at k q). split; [apply surfs_are; eauto|].
    rewrite surf_at_index, surf_at_edgeind. split; auto. apply in_map_iff. exists (j, p). auto.
Qed.
Lemma VS_is v s : VS grid v s <-> exists p k, box dim p /\ plane k /\ v = cid p /\ (s = sid k p \/ s = sid k (radd p (surf_prop k))).
Proof.
  unfold VS, lists. split.
  - intros [a [Ha [<- He]]]. apply volus_are in Ha. destruct Ha as [p [Hp ->]]. exists p. cbn [volu_at vo_surfind vo_index In] in *.
    unfold plane. destruct He as [<-|[<-|[<-|[<-|[<-|[<-|[]]]]]]]; [exists 0|exists 1|exists 2|exists 0|exists 1|exists 2]; auto 10.
  - intros [p [k [Hp [Hk [-> Hs]]]]]. exists (volu_at p). split; [apply volus_are; eauto|]. split; auto. cbn [volu_at vo_surfind In].
    destruct Hk as [-> | [-> | -> ]], Hs as [-> | -> ]; tauto.
Qed.
Lemma SV_is s v : v <> 0 -> (SV grid s v <-> exists k q, plane k /\ box (mat_surf dim k) q /\ s = sid k q /\
  ((box dim q /\ v = cid q) \/ (box dim (rsub q (surf_prop k)) /\ v = cid (rsub q (surf_prop k))))).
Proof.
  intros Hv.
  assert (Hge : forall k q, plane k -> box (mat_surf dim k) q -> (any_ge q dim = false <-> box dim q)).
  { intros k q Hk Hq. destruct dim as [[d0 d1] d2], q as [[q0 q1] q2]. unfold any_ge, box. rewrite !orb_false_iff, !Z.leb_gt.
    destruct Hk as [-> | [-> | -> ]]; simpl in Hq; lia. }
  assert (Hng : forall k q, plane k -> box (mat_surf dim k) q -> (any_neg (rsub q (surf_prop k)) = false <-> box dim (rsub q (surf_prop k)))).
  { intros k q Hk Hq. destruct dim as [[d0 d1] d2], q as [[q0 q1] q2].
    destruct Hk as [-> | [-> | -> ]]; simpl in Hq; cbn [surf_prop rsub any_neg Z.eqb box]; rewrite ?orb_false_iff, ?Z.ltb_ge; simpl; 
      rewrite ?orb_false_iff, ?Z.ltb_ge; lia. }
  unfold SV, lists. split.
  - intros [a [Ha [<- He]]]. apply surfs_are in Ha. destruct Ha as [k [q [Hk [Hq ->]]]]. exists k, q.
    rewrite surf_at_index. rewrite surf_at_voluind in He. specialize (Hge k q Hk Hq). specialize (Hng k q Hk Hq).
    do 3 (split; [auto|]). destruct He as [He|[He|[]]].
    + left. destruct (any_ge q dim); [congruence|]. split; [apply Hge|]; auto.
    + right. destruct (any_neg (rsub q (surf_prop k))); [congruence|]. split; [apply Hng|]; auto.
  - intros [k [q [Hk [Hq [-> H]]]]]. exists (surf_at k q). split; [apply surfs_are; eauto|]. rewrite surf_at_index, surf_at_voluind.
    split; auto. destruct H as [[Hb ->]|[Hb ->]].
    + apply (Hge k q Hk Hq) in Hb. rewrite Hb. left. auto.
    + apply (Hng k q Hk Hq) in Hb. rewrite Hb. right. left. auto.
Qed.

(** ** Everything refers back *)
Ltac planes := repeat match goal with H : plane _ |- _ => destruct H as [-> | [-> | -> ]] end.
Lemma plane3 : plane 0 /\ plane 1 /\ plane 2.
Proof. unfold plane. auto. Qed.
Lemma edge_ends j q : plane j -> box (mat_edge dim j) q -> box dimv q /\ box dimv (radd q (axis j)).
Proof.
  unfold dimv. destruct dim as [[d0 d1] d2], q as [[q0 q1] q2]. intros Hj Hq. planes; simpl in *; lia.
Qed.
Lemma face_edges_ok k q j p : plane k -> box (mat_surf dim k) q -> In (j, p) (face_edges k q) ->
  plane j /\ box (mat_edge dim j) p /\ 2 - k <> j /\ (q = p \/ q = rsub p (edge_mask j k)).
Proof.
  intros Hk Hq Hc. unfold face_edges in Hc. unfold plane.
  destruct dim as [[d0 d1] d2], q as [[q0 q1] q2].
  planes; cbn in Hc; destruct Hc as [E|[E|[E|[E|[]]]]]; inversion E; subst; clear E; cbn in *;
    (split; [auto|]); (split; [lia|]); (split; [lia|]);
    solve [left; reflexivity | right; apply row_eq; lia].
Qed.
Lemma face_edges_all j p k q : plane j -> plane k -> 2 - k <> j -> (q = p \/ q = rsub p (edge_mask j k)) ->
  In (j, p) (face_edges k q).
Proof.
  intros Hj Hk Hne H. destruct p as [[p0 p1] p2], q as [[q0 q1] q2]. unfold face_edges.
  planes; try (exfalso; apply Hne; reflexivity); cbn in *;
    (destruct H as [H|H]; inversion H; subst; clear H);
    first [left; f_equal; apply row_eq; lia | right; left; f_equal; apply row_eq; lia
          | right; right; left; f_equal; apply row_eq; lia | right; right; right; left; f_equal; apply row_eq; lia].
Qed.
Lemma sid_pos k q : plane k -> box (mat_surf dim k) q -> 0 < sid k q.
Proof. intros Hk Hq. destruct (@fnum_find _ surf_mats _ _ Hk Hq) as [_ [_ H]]. unfold sid. lia. Qed.
Lemma eid_pos k q : plane k -> box (mat_edge dim k) q -> 0 < eid k q.
Proof. intros Hk Hq. destruct (@fnum_find _ edge_mats _ _ Hk Hq) as [_ [_ H]]. unfold eid. lia. Qed.
Lemma vid_pos p : box dimv p -> 0 < vid p.
Proof. intros H. apply enc_range in H. unfold vid. fold dimv. lia. Qed.
Lemma cid_pos p : box dim p -> 0 < cid p.
Proof. intros H. apply enc_range in H. unfold cid. lia. Qed.
Lemma cell_faces p k : box dim p -> plane k -> box (mat_surf dim k) p /\ box (mat_surf dim k) (radd p (surf_prop k)).
Proof. destruct dim as [[d0 d1] d2], p as [[p0 p1] p2]. intros Hp Hk. planes; simpl in *; lia. Qed.

Lemma grid_mutual : mutual grid.
Proof.
  repeat apply conj.
  - intros v e H _. apply VE_is in H. destruct H as [p [j [q [Hp [-> [Hj [Hq [-> Hpq]]]]]]]]. apply EV_is.
    exists j, q. do 3 (split; [auto|]). destruct Hpq as [-> | -> ]; [auto|]. rewrite sub_add. auto.
  - intros v e H _. apply EV_is in H. destruct H as [j [q [Hj [Hq [-> Hv]]]]]. apply VE_is.
    destruct (edge_ends _ Hj Hq) as [A B]. destruct Hv as [-> | -> ].
    + exists q, j, q. auto 10.
    + exists (radd q (axis j)), j, q. rewrite add_sub. auto 10.
  - intros e s H Hs. apply ES_is in H; auto. destruct H as [j [p [k [q [Hj [Hp [-> [Hk [Hq [-> [Hne Hpq]]]]]]]]]]].
    apply SE_is. exists k, q, j, p. do 3 (split; [auto|]). split; auto. apply face_edges_all; auto.
  - intros e s H _. apply SE_is in H. destruct H as [k [q [j [p [Hk [Hq [-> [Hc ->]]]]]]]].
    destruct (face_edges_ok _ _ _ Hk Hq Hc) as [Hj [Hp [Hne Hpq]]].
    apply ES_is; [pose proof (sid_pos _ Hk Hq); lia|]. exists j, p, k, q. auto 10.
  - intros s v H Hv. apply SV_is in H; auto. destruct H as [k [q [Hk [Hq [-> [[Hb ->]|[Hb ->]]]]]]]; apply VS_is.
    + exists q, k. auto.
    + exists (rsub q (surf_prop k)), k. rewrite sub_add. auto.
  - intros s v H _. apply VS_is in H. destruct H as [p [k [Hp [Hk [-> Hs]]]]]. destruct (cell_faces _ Hp Hk) as [A B].
    apply SV_is; [pose proof (cid_pos _ Hp); lia|]. destruct Hs as [-> | -> ].
    + exists k, p. auto 10.
    + exists k, (radd p (surf_prop k)). rewrite add_sub. auto 10.
Qed.

Lemma index_list {A} (idx : A -> Z) (f : Z -> A) n : (forall k, idx (f k) = k + 1) ->
  map idx (map f (upto (Z.to_nat n) 0)) = upto (Z.to_nat n) 1.
Proof.
  intros H. rewrite map_map. change 1 with (0 + 1). generalize 0. induction (Z.to_nat n) as [|m IH]; intros k; simpl; auto.
  rewrite H, IH. reflexivity.
Qed.
Lemma upto_NoDup n k : NoDup (upto n k) /\ forall x, In x (upto n k) <-> k <= x < k + Z.of_nat n.
Proof.
  revert k. induction n as [|n IH]; intros k; simpl; [split; [constructor|lia]|]. destruct (IH (k + 1)) as [A B]. split.
  - constructor; auto. rewrite B. lia.
  - intros x. rewrite B. lia.
Qed.
Lemma grid_indices :
  map vo_index (volus grid) = upto (Z.to_nat (rprod dim)) 1 /\
  map su_index (surfs grid) = upto (Z.to_nat (rsum (n_surf_dim dim))) 1 /\
  map ed_index (edges grid) = upto (Z.to_nat (rsum (n_edge_dim dim))) 1 /\
  map ve_index (verts grid) = upto (Z.to_nat (rprod dimv)) 1.
Proof.
  cbn [block_grid volus surfs edges verts]. repeat split; apply index_list; intros k; auto.
  unfold block_surf. destruct (in_plane _). reflexivity.
Qed.
Lemma grid_unique : unique_indices grid.
Proof.
  destruct grid_indices as [A [B [C D]]].
  assert (Z0 : forall T (idx : T -> Z) l n, map idx l = upto n 1 -> ~ exists a, In a l /\ idx a = 0).
  { intros T idx l n E [a [Ha Hi]]. apply (in_map idx) in Ha. rewrite E, Hi in Ha. apply (proj2 (upto_NoDup n 1)) in Ha. lia. }
  unfold unique_indices. rewrite A, B, C, D.
  do 4 (split; [apply upto_NoDup|]).
  split; [eapply Z0; exact A|]. split; [eapply Z0; exact B|]. split; [eapply Z0; exact C|eapply Z0; exact D].
Qed.
(** An edge of a grid with cells has a face in each of its two planes. *)
Lemma edge_two_faces j p : box (radd dim (1,1,1)) (1,1,1) -> plane j -> box (mat_edge dim j) p -> (2 <= length (edge_cands j p))%nat.
Proof.
  intros Hpos Hj Hp.
  assert (Hk : forall k, plane k -> 2 - k <> j -> exists q, In (k, q) (edge_cands j p)).
  { intros k Hk Hne.
    assert (K : box (mat_surf dim k) p \/ box (mat_surf dim k) (rsub p (edge_mask j k))).
    { destruct dim as [[d0 d1] d2], p as [[p0 p1] p2]. planes; try (exfalso; apply Hne; reflexivity); cbn in *; lia. }
    destruct K as [K|K]; eexists; apply edge_cands_In; eauto. }
  assert (H2 : exists k1 k2, plane k1 /\ plane k2 /\ k1 <> k2 /\ 2 - k1 <> j /\ 2 - k2 <> j).
  { unfold plane. planes; [exists 0, 1|exists 0, 2|exists 1, 2]; lia. }
  destruct H2 as [k1 [k2 [P1 [P2 [Hne [N1 N2]]]]]].
  destruct (Hk k1 P1 N1) as [q1 A1]. destruct (Hk k2 P2 N2) as [q2 A2].
  destruct (edge_cands j p) as [|x [|y r]]; simpl in *; try lia; try contradiction.
  destruct A1 as [A1|[]], A2 as [A2|[]]. congruence.
Qed.
Lemma grid_exterior : exterior_only grid.
Proof.
  repeat apply conj.
  - intros v H. apply VE_is in H. destruct H as [p [j [q [Hp [_ [Hj [Hq [E _]]]]]]]]. pose proof (eid_pos _ Hj Hq). lia.
  - intros e H. apply EV_is in H. destruct H as [j [q [Hj [Hq [_ Hv]]]]]. destruct (edge_ends _ Hj Hq) as [A B].
    apply vid_pos in A, B. lia.
  - intros s H. apply SE_is in H. destruct H as [k [q [j [p [Hk [Hq [_ [Hc E]]]]]]]].
    destruct (face_edges_ok _ _ _ Hk Hq Hc) as [Hj [Hp _]]. pose proof (eid_pos _ Hj Hp). lia.
  - intros v H. apply VS_is in H. destruct H as [p [k [Hp [Hk [_ Hs]]]]]. destruct (cell_faces _ Hp Hk) as [A B].
    pose proof (sid_pos _ Hk A). pose proof (sid_pos _ Hk B). lia.
  - intros Hv e [a [Ha [_ He]]]. apply edges_are in Ha. destruct Ha as [j [p [Hj [Hp ->]]]]. cbn [edge_at ed_surfind] in He.
    assert (Hpos : box (radd dim (1, 1, 1)) (1, 1, 1)).
    { destruct (volus grid) as [|v0 r] eqn:Ev; [congruence|]. assert (K : In v0 (volus grid)) by (rewrite Ev; left; auto).
      apply volus_are in K. destruct K as [q [Hq _]]. destruct dim as [[d0 d1] d2], q as [[q0 q1] q2]. simpl in *. lia. }
    pose proof (edge_two_faces _ Hpos Hj Hp) as L. rewrite map_length in He.
    replace (2 - length (edge_cands j p))%nat with 0%nat in He by lia. simpl in He. rewrite app_nil_r in He.
    apply in_map_iff in He. destruct He as [[k q] [E Hc]]. apply edge_cands_In in Hc. destruct Hc as [Hk [Hq _]].
    pose proof (sid_pos _ Hk Hq). simpl in E. lia.
Qed.
Lemma grid_connected : well_connected grid.
Proof. split; [apply grid_unique|]. split; [apply grid_mutual|apply grid_exterior]. Qed.
End Grid.
