(** The domain given to tetgen, C112.  Doubles are real numbers. *)
From Coq Require Import Reals Lra Lia List ZArith.
From Verif Require Import Base Containers ContainersProofs Mesh SpecMesh MergeProofs Flood Voxel SpecVoxel VoxelFaceProofs FloatQuot FloatQuotProofs Geom SpecGeom GeomProofs ScaleProofs.
From Verif Require Import Domain SpecDomain DomainProofs PropsVoxel.
Import ListNotations.
Set Implicit Arguments.
Open Scope R_scope.

(** ** The first box *)
Lemma coord_div ii : (0 <= ii < 8)%Z -> block_coord quot32 quot64 (1, 1, 1)%Z ii = block_coord Z.div Z.div (1, 1, 1)%Z ii.
Proof.
  intros I. unfold block_coord. cbn [radd]. rewrite (@position_same quot64 quot32); [reflexivity|cbn; lia|cbn; lia|].
  cbn. split; [apply quot32_exact|apply quot64_exact]; lia.
Qed.
Lemma first_box b : gcoord (build_domain b (1 / 10)) = corners (widened b) /\ gtopo (build_domain b (1 / 10)) = cube.
Proof.
  split; [|reflexivity]. unfold build_domain. cbn [gcoord]. fold cube. destruct cube_sizes as [_ [_ [_ [-> _]]]].
  destruct b as [[[lx hx] [ly hy]] [lz hz]]. cbn [upto map]. unfold place_vert.
  rewrite !coord_div by lia. cbn. unfold place. cbn [fst snd].
  repeat (f_equal; try field).
Qed.

(** ** Scaling a box *)
Lemma solid_dir b j : solid b -> fst (ldir b j) < snd (ldir b j).
Proof. destruct b as [[bx by_] bz]. intros [X [Y Z0]]. destruct j as [|[|j]]; assumption. Qed.
Lemma corners_dir b j : (j < 3)%nat -> solid b -> extremes (fst (ldir b j)) (snd (ldir b j)) (direction j (corners b)).
Proof.
  destruct b as [[[lx hx] [ly hy]] [lz hz]]. intros J [X [Y Z0]]. cbn [fst snd] in *. unfold extremes.
  destruct j as [|[|[|j]]]; [| | |lia]; cbn; (split; [tauto|]; split; [tauto|]; intros x H; repeat destruct H as [<-|H]; lra || contradiction).
Qed.
Lemma move_ends lo hi a b : lo < hi -> let f := move1 (a, lo, if Req_EM_T (hi - lo) 0 then 1 else (b - a) / (hi - lo)) in f lo = a /\ f hi = b.
Proof. intros L. cbn zeta. unfold move1. destruct (Req_EM_T (hi - lo) 0); [lra|]. split; [ring|field; lra]. Qed.
Lemma scale_corners b d topo : solid b -> exists t, scale d (mkG topo (corners b)) = Ok (mkG topo (corners d), t).
Proof.
  intros S. assert (F : Forall point3 (corners b)) by (destruct b as [[bx by_] bz]; repeat constructor).
  destruct (scale_ok d (mkG topo (corners b)) F) as [t [E T]]; [destruct b as [[bx by_] bz]; discriminate|].
  exists t. rewrite E. cbn [gcoord gtopo]. f_equal. f_equal. f_equal. cbn [gcoord] in T.
  assert (Q : forall j, (j < 3)%nat -> move1 (tdir t j) (fst (ldir b j)) = fst (ldir d j) /\ move1 (tdir t j) (snd (ldir b j)) = snd (ldir d j)).
  { intros j J. destruct (T j J) as [lo [hi [X ->]]]. destruct (extremes_unique X (corners_dir b J S)) as [-> ->]. apply move_ends. apply solid_dir, S. }
  destruct (Q 0%nat ltac:(lia)) as [A0 B0]. destruct (Q 1%nat ltac:(lia)) as [A1 B1]. destruct (Q 2%nat ltac:(lia)) as [A2 B2].
  destruct b as [[[lx hx] [ly hy]] [lz hz]]. destruct d as [[[lx' hx'] [ly' hy']] [lz' hz']]. cbn [ldir fst snd] in *.
  unfold corners. cbn [flat_map map app fst snd]. unfold moved. cbn [nth]. rewrite A0, A1, A2, B0, B1, B2. reflexivity.
Qed.

(** ** The steps *)
Lemma scale_dom_box outer inner n k : (1 <= k < n)%nat -> scale_dom outer inner (Z.of_nat n) (Z.of_nat k) = domain_box outer inner n k.
Proof.
  intros K. assert (D : IZR (Z.of_nat n - 1) = INR (n - 1)) by (rewrite INR_IZR_INZ; f_equal; lia).
  unfold scale_dom, domain_box. rewrite D, <- INR_IZR_INZ. destruct k as [|k]; [lia|]. unfold part_way, each_side. set (x := INR (S k) / INR (n - 1)).
  destruct inner as [[[a b] [c d]] [e f]]. destruct outer as [[[a' b'] [c' d']] [e' f']]. cbn [fst snd]. unfold dom_inter.
  repeat (f_equal; try ring).
Qed.
Lemma fraction k n : (1 <= k < n)%nat -> 0 < INR k / INR (n - 1) <= 1.
Proof.
  intros K. assert (A : 0 < INR k) by (apply lt_0_INR; lia). assert (B : INR k <= INR (n - 1)) by (apply le_INR; lia).
  assert (C : 0 < / INR (n - 1)) by (apply Rinv_0_lt_compat; lra). split; [apply Rmult_lt_0_compat; auto|].
  unfold Rdiv. replace 1 with (INR (n - 1) * / INR (n - 1)) by (field; lra). apply Rmult_le_compat_r; lra.
Qed.
Lemma solid_box outer inner n k : solid inner -> solid outer -> (k < n)%nat -> solid (domain_box outer inner n k).
Proof.
  intros I O K. assert (J : k = 0%nat \/ (1 <= k < n)%nat) by lia. destruct J as [->|J].
  - unfold domain_box, widened, each_side. destruct inner as [[bx by_] bz]. cbn in *. lra.
  - pose proof (fraction J) as F. unfold domain_box. destruct k as [|k]; [lia|]. set (x := INR (S k) / INR (n - 1)) in *.
    destruct inner as [[[a b] [c d]] [e f]]. destruct outer as [[[a' b'] [c' d']] [e' f']]. cbn in *.
    assert (G : forall u v u' v', u < v -> u' < v' -> (1 - x) * u + x * u' < (1 - x) * v + x * v').
    { intros u v u' v' U V. assert ((1 - x) * u <= (1 - x) * v) by (apply Rmult_le_compat_l; lra). assert (x * u' < x * v') by (apply Rmult_lt_compat_l; lra). lra. }
    destruct I as [I1 [I2 I3]]. destruct O as [O1 [O2 O3]]. split; [|split]; apply G; auto.
Qed.

Section Steps.
Variables outer inner : limits.
Variable n : nat.
Hypotheses (Si : solid inner) (So : solid outer).
Let box k := domain_box outer inner n k.
Definition reached (k : nat) (st : gmesh * gmesh * list Z) : Prop :=
  let '(dom, temp, per) := st in
  gathered k (gtopo dom) /\ well_connected (gtopo dom) /\ positive_indices (gtopo dom) /\
  gtopo temp = copy k /\ gcoord temp = corners (box k) /\
  gcoord dom = flat_map (fun k => corners (box k)) (seq 0 (S k)) /\ per = repeat 8%Z (S k).
Lemma copy_verts k : length (verts (copy k)) = 8%nat.
Proof. unfold copy, change_indices. cbn [verts]. rewrite map_length. apply cube_sizes. Qed.
Lemma gathered_volus k m : gathered k m -> volus m <> [].
Proof. intros [E _]. rewrite E. cbn [seq map flat_map]. intros N. apply app_eq_nil in N. exact (@copy_volus 0%nat (proj1 N)). Qed.
Lemma reached_start : let d := build_domain inner (1 / 10) in reached 0 (d, d, [Z.of_nat (length (verts (gtopo d)))]).
Proof using All.
  cbn zeta. destruct (first_box inner) as [C T]. unfold reached. rewrite T, C. split; [apply gathered_0|]. split; [apply cube_wc|]. split; [apply cube_pos|].
  split; [symmetry; apply copy_0|]. split; [reflexivity|]. split; [cbn [seq flat_map]; rewrite app_nil_r; reflexivity|].
  destruct cube_sizes as [_ [_ [_ [-> _]]]]. reflexivity.
Qed.
Lemma reached_next k st : (S k < n)%nat -> reached k st -> exists st', cut_step outer inner (Z.of_nat n) (Z.of_nat (S k)) st = Ok st' /\ reached (S k) st'.
Proof using All.
  destruct st as [[dom temp] per]. intros K [G [W [P [T [C [D R]]]]]]. unfold cut_step. rewrite scale_dom_box by lia.
  destruct temp as [topo coords]. cbn [gtopo gcoord] in *. subst topo coords.
  destruct (@scale_corners (box k) (domain_box outer inner n (S k)) (copy k)) as [t E]; [apply solid_box; auto; lia|].
  rewrite E. cbn [bind fst gtopo gcoord]. rewrite (@next_copy k (gtopo dom)) by exact G. eexists. split; [reflexivity|].
  pose proof (@concat_wc (gtopo dom) (copy k) W (proj1 (copy_wc k)) P (proj2 (copy_wc k)) (gathered_volus G) (@copy_volus k)) as Q.
  rewrite (@next_copy k (gtopo dom)) in Q by exact G. destruct Q as [W' P'].
  unfold reached. cbn [gtopo gcoord]. split; [apply gathered_next; auto|]. split; [exact W'|]. split; [exact P'|]. split; [reflexivity|]. split; [reflexivity|].
  split.
  - rewrite (seq_S (S k) 0), flat_map_app, D. cbn [Nat.add flat_map]. rewrite app_nil_r. reflexivity.
  - rewrite copy_verts, R. change (Z.of_nat 8) with 8%Z. rewrite <- (repeat_cons (S k)). reflexivity.
Qed.
Lemma reached_all j : forall k st, (k + j < n)%nat -> reached k st ->
  exists st', for_each (map Z.of_nat (seq (S k) j)) (cut_step outer inner (Z.of_nat n)) st = Ok st' /\ reached (k + j) st'.
Proof using All.
  induction j as [|j IH]; intros k st K R; [exists st; split; [reflexivity|rewrite Nat.add_0_r; exact R]|].
  cbn [seq map for_each]. destruct (@reached_next k st ltac:(lia) R) as [st1 [E R1]]. rewrite E. cbn [bind].
  destruct (IH (S k) st1 ltac:(lia) R1) as [st2 [E2 R2]]. exists st2. split; [exact E2|]. rewrite Nat.add_succ_r. exact R2.
Qed.
End Steps.

Lemma flat_len A B (f : A -> list B) c l : (forall a, In a l -> length (f a) = c) -> length (flat_map f l) = (c * length l)%nat.
Proof. induction l as [|a r IH]; cbn; intros H; [lia|]. rewrite app_length, IH, H by auto. lia. Qed.

(** ** C112 *)
(** BuildCutCellDomain with at least one subdomain, for boxes whose sides have positive
    length: a consistent mesh made of one closed hexahedron per subdomain, whose corners are
    those of the inner box widened by 1/10, then of the boxes in equal steps from the inner
    box (left out) to the outer box; eight vertices are announced for each.  The indices of
    the copies are not consecutive: they double at each step. *)
Theorem C112_domain outer inner n per : (1 <= n)%nat -> solid inner -> solid outer ->
  exists g, build_cut_cell outer inner (Z.of_nat n) per = Ok (g, repeat 8%Z n) /\
    well_connected (gtopo g) /\ positive_indices (gtopo g) /\ meshDim (gtopo g) = 3%Z /\
    structured 1 1 1 cube /\ doubling_copies cube n (gtopo g) /\
    length (volus (gtopo g)) = n /\ length (surfs (gtopo g)) = (6 * n)%nat /\
    length (edges (gtopo g)) = (12 * n)%nat /\ length (verts (gtopo g)) = (8 * n)%nat /\
    gcoord g = flat_map (fun k => corners (domain_box outer inner n k)) (seq 0 n).
Proof.
  intros N Si So. unfold build_cut_cell. replace (Z.of_nat n =? 0)%Z with false by (symmetry; apply Z.eqb_neq; lia).
  rewrite Nat2Z.id. pose proof (@reached_start outer inner n Si So) as R0. cbn zeta in *.
  destruct (@reached_all outer inner n Si So (n - 1) 0 _ ltac:(lia) R0) as [[[dom temp] pers] [E R]]. rewrite E. cbn [bind fst snd].
  rewrite Nat.add_0_l in R. destruct R as [G [W [P [_ [_ [D R]]]]]]. replace (S (n - 1)) with n in * by lia.
  exists dom. rewrite R. split; [reflexivity|]. split; [exact W|]. split; [exact P|].
  destruct G as [G1 [G2 [G3 [G4 G5]]]]. replace (S (n - 1)) with n in * by lia. split; [exact G5|].
  split; [apply C25_grid_partial; lia|].
  destruct cube_sizes as [L1 [L2 [L3 [L4 _]]]].
  split.
  { exists (map copy (seq 0 n)). split; [rewrite map_length, seq_length; reflexivity|]. do 4 (split; [assumption|]).
    intros k part K. cbn zeta. assert (Kn : (k < n)%nat). { assert (nth_error (map copy (seq 0 n)) k <> None) by (rewrite K; discriminate). apply nth_error_Some in H. rewrite map_length, seq_length in H. exact H. }
    rewrite (map_nth_error copy k (seq 0 n) (d := k)) in K by (rewrite (nth_error_nth' _ 0%nat) by (rewrite seq_length; exact Kn); rewrite seq_nth by exact Kn; reflexivity).
    injection K as <-. destruct cube_wc as [_ [_ [X1 [X2 [X3 _]]]]]. apply change_shifted; auto. apply cube_pos. }
  assert (Q : forall A (get : mesh -> list A) c, (forall k, length (get (copy k)) = c) -> length (flat_map get (map copy (seq 0 n))) = (c * n)%nat).
  { intros A get c H. rewrite (@flat_len _ _ _ c); [rewrite map_length, seq_length; reflexivity|]. intros a Ha. apply in_map_iff in Ha. destruct Ha as [k [<- _]]. apply H. }
  split; [rewrite G1, (Q _ volus 1%nat); [lia|intros k; unfold copy, change_indices; cbn [volus]; rewrite map_length; exact L1]|].
  split; [rewrite G2; apply Q; intros k; unfold copy, change_indices; cbn [surfs]; rewrite map_length; exact L2|].
  split; [rewrite G3; apply Q; intros k; unfold copy, change_indices; cbn [edges]; rewrite map_length; exact L3|].
  split; [rewrite G4; apply Q; intros k; unfold copy, change_indices; cbn [verts]; rewrite map_length; exact L4|].
  exact D.
Qed.
Print Assumptions C112_domain.
Example C112_case : let inner := ((-1, 1), (-1, 1), (0, 2)) in let outer := ((-15, 15), (-15, 15), (-10, 12)) in
  solid inner /\ solid outer /\ within inner outer /\ within (widened inner) (domain_box outer inner 3 1) /\
  nth 9 (flat_map (fun k => corners (domain_box outer inner 3 k)) (seq 0 3)) [] = [8; -8; -5].
Proof.
  cbn zeta. unfold solid, within, widened, domain_box, part_way, each_side. cbn. split; [lra|]. split; [lra|]. split; [lra|]. split; [lra|].
  repeat (f_equal; try field).
Qed.

(** When the inner box lies in the outer one, the boxes from the second on grow and the
    last is the outer box. *)
Theorem C112_nested outer inner n : within inner outer ->
  (forall k, (1 <= k)%nat -> (S k < n)%nat -> within (domain_box outer inner n k) (domain_box outer inner n (S k))) /\
  ((2 <= n)%nat -> domain_box outer inner n (n - 1) = outer).
Proof.
  intros I. split.
  - intros k K1 K2. assert (F : INR k / INR (n - 1) <= INR (S k) / INR (n - 1)).
    { assert (0 < INR (n - 1)) by (apply lt_0_INR; lia). apply Rmult_le_compat_r; [left; apply Rinv_0_lt_compat; auto|]. apply le_INR. lia. }
    destruct k as [|k]; [lia|]. unfold domain_box. set (x := INR (S k) / INR (n - 1)) in *. set (y := INR (S (S k)) / INR (n - 1)) in *.
    destruct inner as [[[a b] [c d]] [e f]]. destruct outer as [[[a' b'] [c' d']] [e' f']]. cbn in *.
    assert (G : forall u v, u <= v -> (1 - x) * u + x * v <= (1 - y) * u + y * v) by (intros u v U; assert (0 <= (y - x) * (v - u)) by (apply Rmult_le_pos; lra); lra).
    assert (H : forall u v, v <= u -> (1 - y) * u + y * v <= (1 - x) * u + x * v) by (intros u v U; assert (0 <= (y - x) * (u - v)) by (apply Rmult_le_pos; lra); lra).
    destruct I as [[I1 I2] [[I3 I4] [I5 I6]]]. split; [split; [apply H; auto|apply G; auto]|]. split; split; [apply H; auto|apply G; auto|apply H; auto|apply G; auto].
  - intros N. unfold domain_box. destruct (n - 1)%nat as [|k] eqn:E; [lia|]. assert (INR (S k) <> 0) by (apply not_0_INR; lia).
    replace (INR (S k) / INR (S k)) with 1 by (field; auto).
    destruct inner as [[[a b] [c d]] [e f]]. destruct outer as [[[a' b'] [c' d']] [e' f']]. cbn. repeat (f_equal; try ring).
Qed.
Print Assumptions C112_nested.

(** Finding: the first box is widened by 1/10 and the others are not, so that it may stick
    out of the next one although the inner box lies strictly inside the outer one. *)
Theorem C112_nested_refuted : exists outer inner, solid inner /\ solid outer /\ within inner outer /\
  ~ within (domain_box outer inner 2 0) (domain_box outer inner 2 1) /\ ~ within (domain_box outer inner 2 1) (domain_box outer inner 2 0).
Proof.
  exists ((-1 / 20, 1 + 1 / 20), (-1, 2), (-1, 2)), ((0, 1), (0, 1), (0, 1)).
  unfold solid, within, domain_box, widened, part_way, each_side. cbn. split; [lra|]. split; [lra|]. split; [lra|]. split; lra.
Qed.
Print Assumptions C112_nested_refuted.

(** Without subdomains the mesh is empty and the list given keeps its content; a negative
    number of subdomains gives one. *)
Theorem C112_none outer inner per :
  (exists g, build_cut_cell outer inner 0 per = Ok (g, per) /\ gcoord g = [] /\ volus (gtopo g) = [] /\ surfs (gtopo g) = [] /\ edges (gtopo g) = [] /\ verts (gtopo g) = []) /\
  forall n, (n < 0)%Z -> build_cut_cell outer inner n per = build_cut_cell outer inner 1 per.
Proof.
  split; [eexists; split; [reflexivity|repeat split]|]. intros n N. unfold build_cut_cell.
  replace (n =? 0)%Z with false by (symmetry; apply Z.eqb_neq; lia). replace (Z.to_nat n - 1)%nat with 0%nat by lia. reflexivity.
Qed.
Print Assumptions C112_none.

(** Finding: the greatest index of an edge is 12 * 2^(n-1), although there are 12 * n edges;
    from 29 subdomains on it does not fit in an int. *)
Theorem C112_indices outer inner n per g : (1 <= n)%nat -> solid inner -> solid outer ->
  build_cut_cell outer inner (Z.of_nat n) per = Ok (g, repeat 8%Z n) ->
  (exists e, In e (edges (gtopo g)) /\ ed_index e = (12 * 2 ^ (Z.of_nat n - 1))%Z) /\
  (forall e, In e (edges (gtopo g)) -> (ed_index e <= 12 * 2 ^ (Z.of_nat n - 1))%Z) /\
  ((29 <= n)%nat -> exists e, In e (edges (gtopo g)) /\ (2 ^ 31 - 1 < ed_index e)%Z).
Proof.
  intros N Si So E. destruct (@C112_domain outer inner n per N Si So) as [g' [E' [_ [_ [_ [_ [C _]]]]]]].
  rewrite E in E'. injection E' as <-. destruct C as [parts [L [_ [_ [Ee [_ H]]]]]].
  assert (Q : forall k part, nth_error parts k = Some part -> map ed_index (edges part) = map (fun i => (i + 12 * (2 ^ Z.of_nat k - 1))%Z) [1;2;3;4;5;6;7;8;9;10;11;12]%Z).
  { intros k part K. specialize (H k part K). cbn zeta in H. destruct H as [_ [_ [_ [_ [_ [H _]]]]]]. rewrite H. rewrite <- (map_map ed_index (fun i => (i + 12 * (2 ^ Z.of_nat k - 1))%Z)).
    rewrite cube_div. reflexivity. }
  assert (T : exists e, In e (edges (gtopo g)) /\ ed_index e = (12 * 2 ^ (Z.of_nat n - 1))%Z).
  { destruct (nth_error parts (n - 1)) as [part|] eqn:K; [|apply nth_error_None in K; lia]. pose proof (Q _ _ K) as M.
    assert (I : In (12 * 2 ^ (Z.of_nat n - 1))%Z (map ed_index (edges part))).
    { rewrite M. apply in_map_iff. exists 12%Z. split; [replace (Z.of_nat (n - 1)) with (Z.of_nat n - 1)%Z by lia; lia|cbn; tauto]. }
    apply in_map_iff in I. destruct I as [e [Ie He]]. exists e. split; auto. rewrite Ee. apply in_flat_map. exists part. split; auto. eapply nth_error_In; eauto. }
  split; [exact T|]. split.
  - intros e He. rewrite Ee in He. apply in_flat_map in He. destruct He as [part [Hp He]]. apply In_nth_error in Hp. destruct Hp as [k K].
    assert (Kn : (k < n)%nat) by (rewrite <- L; apply nth_error_Some; rewrite K; discriminate).
    pose proof (Q _ _ K) as M. apply (in_map ed_index) in He. rewrite M in He. apply in_map_iff in He. destruct He as [i [<- Hi]].
    assert (Mono : (2 ^ Z.of_nat k <= 2 ^ (Z.of_nat n - 1))%Z) by (apply Z.pow_le_mono_r; lia).
    assert (i <= 12)%Z by (cbn in Hi; lia). lia.
  - intros B. destruct T as [e [He Te]]. exists e. split; auto. rewrite Te.
    assert (Mono : (2 ^ 28 <= 2 ^ (Z.of_nat n - 1))%Z) by (apply Z.pow_le_mono_r; lia).
    change (2 ^ 28)%Z with 268435456%Z in Mono. change (2 ^ 31 - 1)%Z with 2147483647%Z. lia.
Qed.
Print Assumptions C112_indices.
