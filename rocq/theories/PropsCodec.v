(** Properties C27 and C28: mesh and snake files. *)
From Coq Require Import Reals Lia Lra.
From Flocq Require Import Core.
From Verif Require Import Base Containers Mesh Codec SpecCodec CodecProofs DecimalProofs.
Open Scope R_scope.

Lemma whole {A} (r : reader A) w v : reads r w v -> skip w = w -> r w = Ok (v, []).
Proof. intros R S. rewrite <- S, <- (app_nil_r w) at 1. exact (R []). Qed.
Lemma skip_arr {A} (f : A -> list Z) a l : skip (write_arr f a ++ l) = write_arr f a ++ l.
Proof. unfold write_arr. rewrite <- !app_assoc. apply skip_wint. Qed.
Lemma read_again m : Forall double (mesh_nums m) -> read_mesh (write_mesh m) = Ok (re_mesh m, []).
Proof.
  intros D. apply whole.
  - apply reads_mesh. apply (Forall_impl _ double_ok D).
  - apply skip_arr.
Qed.
Lemma snake_read_again old s : Forall double (snake_nums s) -> read_snake old (write_snake s) =
  Ok (mkFSnake (fst (fk_snaxs s), map re_snax (snd (fk_snaxs s))) (fst (fk_edges s), map re_cell (snd (fk_edges s)))
              (fst (fk_surfs s), map re_cell (snd (fk_surfs s))) (re_mesh (fk_conn s)) (fk_inside old) (fk_flipped old), []).
Proof.
  intros D. apply whole.
  - apply reads_snake. apply (Forall_impl _ double_ok D).
  - apply skip_arr.
Qed.
Lemma Forall2_map_r {A B} (P : A -> B -> Prop) f l : (forall x, In x l -> P x (f x)) -> Forall2 P l (map f l).
Proof. induction l; intros H; constructor; [apply H; now left|apply IHl; intros x X; apply H; now right]. Qed.
Lemma mesh_again_re m : Forall double (mesh_nums m) -> mesh_again m (re_mesh m).
Proof.
  unfold mesh_nums. rewrite !Forall_app. intros (A & B & C). repeat split.
  - apply Forall2_map_r. intros v V. split; [easy|]. apply Forall2_map_r. intros x X.
    apply reprint16_close. exact (proj1 (Forall_forall _ _) (flat_ok _ _ A _ V) x X).
  - apply Forall2_map_r. intros s S. assert (H := flat_ok _ _ B _ S). unfold surf_nums in H.
    rewrite !Forall_cons_iff in H. destruct H as (H1 & H2 & H3 & _).
    repeat split; repeat constructor; now apply reprint16_close.
  - apply Forall2_map_r. intros s S. assert (H := flat_ok _ _ C _ S). unfold volu_nums in H.
    rewrite !Forall_cons_iff in H. destruct H as (H1 & H2 & H3 & _).
    repeat split; repeat constructor; now apply reprint16_close.
Qed.

(** ** C27 *)
(** Every mesh can be read from the file written from it; everything is consumed, all
    indices, flags and references come back, and the numbers come back to within
    10^-16, exactly from 1/2 on. *)
Theorem C27_round_trip m : Forall double (mesh_nums m) ->
  exists m', read_mesh (write_mesh m) = Ok (m', []) /\ mesh_again m m' /\ in_mesh m'.
Proof. intros D. exists (re_mesh m). repeat split; [now apply read_again|apply (mesh_again_re m D)..]. Qed.
Print Assumptions C27_round_trip.
(** A negative count is refused, in front of an array and in front of a list of
    references. *)
Theorem C27_negative_count z b rest : (z < 0)%Z -> read_mesh (wint z ++ wbool b ++ rest) = Throw /\
  forall n i c, (0 < n)%Z -> read_mesh (wint n ++ wbool b ++ wint i ++ wbool c ++ wint z ++ rest) = Throw.
Proof.
  intros N. assert (L : forall y r, rint (wint y ++ r) = Ok (y, skip r)).
  { intros y r. rewrite <- rint_skip. apply reads_int. }
  assert (B : forall y r, rbool (wbool y ++ r) = Ok (y, skip r)).
  { intros y r. unfold rbool, rbind, wbool. rewrite L. now destruct y. }
  assert (K : forall y r, skip (wbool y ++ r) = wbool y ++ r) by (intros; apply skip_wint).
  split.
  - unfold read_mesh, read_arr, rbind at 1 2 3. rewrite L, K, B. destruct (Z.ltb_spec z 0); [reflexivity|lia].
  - intros n i c P. unfold read_mesh, read_arr. unfold rbind at 1 2 3. rewrite L, K, B.
    destruct (Z.ltb_spec n 0); [lia|]. destruct (Z.to_nat n) as [|k] eqn:Ek; [lia|]. cbn [rmany].
    unfold read_vert, rlist. unfold rbind at 1 2 3 4 5. rewrite skip_wint, L, K, B, skip_wint. unfold rbind at 1. rewrite L.
    destruct (Z.ltb_spec z 0); [reflexivity|lia].
Qed.
Print Assumptions C27_negative_count.
Example C27_negative_count_example : read_mesh (wint 1 ++ wbool true ++ wint 1 ++ wbool false ++ wint (-2)) = Throw.
Proof. rewrite <- (app_nil_r (wint (-2))). now apply C27_negative_count. Qed.

(** A second round trip changes nothing: writing the mesh that was read gives the same
    file. *)
Lemma text16 x : double x -> wdbl 16 (reprint 16 x) = wdbl 16 x.
Proof. intros D. unfold wdbl. now rewrite reprint16_text. Qed.
Lemma text6 x : double x -> wdbl 6 (reprint 6 x) = wdbl 6 x.
Proof. intros D. unfold wdbl. now rewrite reprint6_text. Qed.
Lemma concat_map_re {A} (w : A -> list Z) f l : (forall x, In x l -> w (f x) = w x) -> concat (map w (map f l)) = concat (map w l).
Proof. intros H. f_equal. rewrite map_map. now apply map_ext_in. Qed.
Lemma write_arr_re {A} (w : A -> list Z) f b l : (forall x, In x l -> w (f x) = w x) -> write_arr w (b, map f l) = write_arr w (b, l).
Proof. intros H. unfold write_arr. cbn [fst snd]. now rewrite map_length, concat_map_re. Qed.
Lemma write_mesh_re m : Forall double (mesh_nums m) -> in_mesh m -> write_mesh (re_mesh m) = write_mesh m.
Proof.
  unfold mesh_nums. rewrite !Forall_app. intros (A & B & C) (I1 & I2 & I3 & I4).
  destruct m as [[a vs] [b es] [c ss] [d us]]. cbn in A, B, C, I1, I2, I3, I4. subst.
  unfold write_mesh, re_mesh. cbn [f_verts f_edges f_surfs f_volus snd].
  rewrite !write_arr_re; [easy|..]; intros x X.
  - assert (H := flat_ok _ _ C _ X). unfold volu_nums in H. rewrite !Forall_cons_iff in H.
    unfold write_volu, re_volu. cbn. now rewrite !text16.
  - assert (H := flat_ok _ _ B _ X). unfold surf_nums in H. rewrite !Forall_cons_iff in H.
    unfold write_surf, re_surf. cbn. now rewrite !text16.
  - assert (H := flat_ok _ _ A _ X). unfold write_vert, re_vert. cbn. unfold wlist.
    rewrite map_length, concat_map_re; [easy|]. intros y Y. apply text16. exact (proj1 (Forall_forall _ _) H y Y).
Qed.
Theorem C27_text_stable m m' : Forall double (mesh_nums m) -> in_mesh m ->
  read_mesh (write_mesh m) = Ok (m', []) -> write_mesh m' = write_mesh m.
Proof. intros D I R. rewrite (read_again m D) in R. injection R as <-. now apply write_mesh_re. Qed.
Print Assumptions C27_text_stable.

(** Numbers that are multiples of 2^-16 (a block grid whose numbers of cells are powers
    of two up to 2^16, integer coordinates, fills of 0 and 1) come back exactly: only the
    flags isordered and isInMesh can differ. *)
Definition unordered (m : fmesh) : fmesh :=
  mkFMesh (true, snd (f_verts m)) (true, snd (f_edges m))
    (true, map (fun s => mkFSurf (mkSurf (su_index (fs_surf s)) (su_border (fs_surf s)) false (su_voluind (fs_surf s)) (su_edgeind (fs_surf s)))
                                 (fs_fill s) (fs_target s) (fs_error s)) (snd (f_surfs m)))
    (true, snd (f_volus m)).
Definition coarse (x : dbl) : Prop := match x with Fin _ a => exists n : Z, a = IZR n * / 2 ^ 16 | _ => True end.
Lemma reprint16_coarse x : double x -> coarse x -> reprint 16 x = x.
Proof.
  destruct x as [neg a|neg|]; [|easy..]. intros D [n E]. apply (reprint_exact 16 neg a (n * 5 ^ 16) D).
  rewrite bpow_ten by easy. rewrite E, mult_IZR. change (10 ^ Z.of_nat 16)%Z with (2 ^ 16 * 5 ^ 16)%Z.
  rewrite mult_IZR. replace (2 ^ 16) with (IZR (2 ^ 16)) by (rewrite pow_IZR; reflexivity).
  set (q := IZR (5 ^ 16)). change (2 ^ 16)%Z with 65536%Z. field.
Qed.
Lemma map_id_in {A} (f : A -> A) l : (forall x, In x l -> f x = x) -> map f l = l.
Proof. intros H. rewrite <- (map_id l) at 2. now apply map_ext_in. Qed.
Theorem C27_exact m : Forall double (mesh_nums m) -> Forall coarse (mesh_nums m) ->
  read_mesh (write_mesh m) = Ok (unordered m, []).
Proof.
  intros D K. rewrite (read_again m D). do 2 f_equal. unfold re_mesh, unordered.
  unfold mesh_nums in D, K. rewrite !Forall_app in D, K. destruct D as (A & B & C), K as (A' & B' & C').
  f_equal; f_equal.
  - apply map_id_in. intros [v c] X. unfold re_vert. cbn. f_equal. apply map_id_in. intros x Y.
    apply reprint16_coarse; [exact (proj1 (Forall_forall _ _) (flat_ok _ _ A _ X) x Y)|exact (proj1 (Forall_forall _ _) (flat_ok _ _ A' _ X) x Y)].
  - apply map_ext_in. intros s X. assert (H := flat_ok _ _ B _ X). assert (H' := flat_ok _ _ B' _ X).
    unfold surf_nums in H, H'. rewrite !Forall_cons_iff in H, H'. unfold re_surf. now rewrite !reprint16_coarse.
  - apply map_id_in. intros [v f t e] X. assert (H := flat_ok _ _ C _ X). assert (H' := flat_ok _ _ C' _ X).
    unfold volu_nums in H, H'. rewrite !Forall_cons_iff in H, H'. cbn in H, H'. unfold re_volu. cbn. now rewrite !reprint16_coarse.
Qed.
Print Assumptions C27_exact.

(** A mesh with one vertex at the position [x] and one at the origin, one edge, one
    surface and one volume. *)
Definition small_mesh (x : R) : fmesh :=
  mkFMesh (true, [mkFVert (mkVert 1 true [1%Z]) [Fin false x; Fin false 0; Fin false 0];
                  mkFVert (mkVert 2 true [1%Z]) [Fin false 0; Fin false 0; Fin false 0]])
          (true, [mkEdge 1 true [1%Z; 0%Z] [1%Z; 2%Z]])
          (true, [mkFSurf (mkSurf 1 true true [1%Z; 0%Z] [1%Z]) (Fin false 0) (Fin false 1) (Fin true 0)])
          (true, [mkFVolu (mkVolu 1 true [1%Z]) (Fin false 0) (Fin false (/ 2)) NaN]).
Lemma dyadic_double (m e : Z) : (0 <= m < 2 ^ 53)%Z -> (-1074 <= e)%Z -> is_double (IZR m * bpow radix2 e).
Proof.
  intros M E. unfold is_double. apply generic_format_FLT.
  exists (Float radix2 m e); [easy| |exact E]. cbn [Fnum]. rewrite Z.abs_eq by lia. apply M.
Qed.
Lemma zero_double neg : double (Fin neg 0).
Proof.
  split; [|split; [lra|apply bpow_gt_0]]. replace 0 with (IZR 0 * bpow radix2 0) by ring. now apply dyadic_double.
Qed.
Lemma dyadic_ok neg (m e : Z) : (0 <= m < 2 ^ 53)%Z -> (-1074 <= e <= 0)%Z -> double (Fin neg (IZR m * bpow radix2 e)).
Proof.
  intros M E. split; [apply dyadic_double; lia|]. split.
  - apply Rmult_le_pos; [apply IZR_le; lia|apply bpow_ge_0].
  - apply Rlt_le_trans with (bpow radix2 53).
    + replace (bpow radix2 53) with (bpow radix2 53 * 1) by ring.
      assert (IZR m < bpow radix2 53) by (rewrite <- (IZR_Zpower radix2) by easy; apply IZR_lt; exact (proj2 M)).
      assert (0 <= IZR m) by (apply IZR_le; lia).
      assert (bpow radix2 e <= 1) by (change 1 with (bpow radix2 0); apply bpow_le; lia).
      assert (0 < bpow radix2 e) by apply bpow_gt_0.
      apply Rle_lt_trans with (IZR m * 1); [apply Rmult_le_compat_l; lra|lra].
    + apply bpow_le. lia.
Qed.
Lemma one_double neg : double (Fin neg 1).
Proof. replace 1 with (IZR 1 * bpow radix2 0) by (cbn; ring). now apply dyadic_ok. Qed.
Lemma half_double neg : double (Fin neg (/ 2)).
Proof. replace (/ 2) with (IZR 1 * bpow radix2 (-1)) by (cbn; ring). now apply dyadic_ok. Qed.
Lemma small_mesh_double x : double (Fin false x) -> Forall double (mesh_nums (small_mesh x)).
Proof.
  intros D. cbn.
  repeat first [apply Forall_nil | apply Forall_cons; [first [exact D | apply zero_double | apply one_double | apply half_double | exact I]|]].
Qed.
Example C27_example : Forall double (mesh_nums (small_mesh (IZR 12345 * bpow radix2 (-40)))) /\
  in_mesh (small_mesh (IZR 12345 * bpow radix2 (-40))).
Proof. split; [apply small_mesh_double; now apply dyadic_ok|easy]. Qed.
Example C27_exact_example : Forall double (mesh_nums (small_mesh (/ 2))) /\ Forall coarse (mesh_nums (small_mesh (/ 2))).
Proof.
  split; [apply small_mesh_double, half_double|]. cbn.
  assert (coarse (Fin false 0)) by (exists 0%Z; lra). assert (coarse (Fin true 0)) by (exists 0%Z; lra).
  assert (coarse (Fin false 1)) by (exists 65536%Z; lra). assert (coarse (Fin false (/ 2))) by (exists 32768%Z; lra).
  repeat first [apply Forall_nil | apply Forall_cons; [first [easy | exact I]|]].
Qed.

(** Below 1/2 the absolute precision is not the precision of a double: a coordinate that
    is not zero can be read as zero, so that two different vertices come back at one
    position. *)
Lemma tiny_printed : reprint 16 (Fin false (IZR 1 * bpow radix2 (-60))) = Fin false 0.
Proof.
  assert (P : printed 16 (IZR 1 * bpow radix2 (-60)) = 0%Z).
  { unfold printed. apply Znearest_imp. rewrite bpow_ten by easy. change (-60)%Z with (- (60))%Z. rewrite two_inv by easy.
    rewrite Rabs_pos_eq.
    - change (10 ^ 16)%Z with 10000000000000000%Z. change (2 ^ 60)%Z with 1152921504606846976%Z. lra.
    - change (10 ^ 16)%Z with 10000000000000000%Z. change (2 ^ 60)%Z with 1152921504606846976%Z. lra. }
  rewrite reprint_fin.
  - f_equal. unfold again. change (Z.of_nat 16) with 16%Z. rewrite P. rewrite Rmult_0_l. apply round_0. apply valid_rnd_N.
  - apply finite16; apply (dyadic_ok false 1 (-60)); easy.
Qed.
Theorem C27_small_refuted : exists m m' (v w v' w' : fvert), Forall double (mesh_nums m) /\
  read_mesh (write_mesh m) = Ok (m', []) /\ snd (f_verts m) = [v; w] /\ snd (f_verts m') = [v'; w'] /\
  fe_coord v <> fe_coord w /\ fe_coord v' = fe_coord w'.
Proof.
  set (x := IZR 1 * bpow radix2 (-60)). assert (D : Forall double (mesh_nums (small_mesh x))) by (apply small_mesh_double; now apply dyadic_ok).
  exists (small_mesh x), (re_mesh (small_mesh x)). do 4 eexists. split; [exact D|]. split; [now apply read_again|].
  split; [reflexivity|]. split; [reflexivity|]. cbn [fe_coord]. split.
  - intros E. injection E as E. unfold x in E. assert (P := bpow_gt_0 radix2 (-60)). lra.
  - unfold re_vert. cbn [fe_coord map]. unfold x. rewrite tiny_printed. f_equal.
    symmetry. apply (reprint_exact 16 false 0 0 (zero_double false)). ring.
Qed.
Print Assumptions C27_small_refuted.

(** ** C28 *)
Lemma snake_again_re old s : Forall double (snake_nums s) -> forall r, read_snake old (write_snake s) = Ok (r, []) -> snake_again s r.
Proof.
  intros D r R. rewrite (snake_read_again old s D) in R. injection R as <-.
  unfold snake_nums in D. rewrite !Forall_app in D. destruct D as (A & B & C & E).
  repeat split; cbn [fk_snaxs fk_edges fk_surfs fk_conn fst snd].
  - apply Forall2_map_r. intros x X. assert (H := flat_ok _ _ A _ X). unfold snax_nums in H. rewrite !Forall_cons_iff in H.
    repeat split; now apply reprint6_close.
  - apply Forall2_map_r. intros x X. assert (H := flat_ok _ _ B _ X). unfold cell_nums in H. rewrite !Forall_cons_iff in H.
    repeat split; repeat constructor; now apply reprint6_close.
  - apply Forall2_map_r. intros x X. assert (H := flat_ok _ _ C _ X). unfold cell_nums in H. rewrite !Forall_cons_iff in H.
    repeat split; repeat constructor; now apply reprint6_close.
  - apply (mesh_again_re _ E).
  - apply (mesh_again_re _ E).
  - apply (mesh_again_re _ E).
Qed.
(** Everything comes back but the positions, velocities and normals, which come back to
    within 10^-6 only, and the flags of the mesh vertices, which stay as they were. *)
Theorem C28_partial old s : Forall double (snake_nums s) ->
  exists s', read_snake old (write_snake s) = Ok (s', []) /\ snake_again s s' /\
             fk_inside s' = fk_inside old /\ fk_flipped s' = fk_flipped old.
Proof.
  intros D. eexists. split; [now apply snake_read_again|]. split; [|easy].
  apply (snake_again_re old s D). now apply snake_read_again.
Qed.
Print Assumptions C28_partial.
Theorem C28_text_stable old s s' : Forall double (snake_nums s) -> in_mesh (fk_conn s) ->
  read_snake old (write_snake s) = Ok (s', []) -> write_snake s' = write_snake s.
Proof.
  intros D I R. rewrite (snake_read_again old s D) in R. injection R as <-.
  unfold snake_nums in D. rewrite !Forall_app in D. destruct D as (A & B & C & E).
  unfold write_snake. cbn [fk_snaxs fk_edges fk_surfs fk_conn].
  rewrite (write_mesh_re _ E I). rewrite !write_arr_re.
  - destruct s as [[] [] [] m i f]. reflexivity.
  - intros x X. assert (H := flat_ok _ _ C _ X). unfold cell_nums in H. rewrite !Forall_cons_iff in H.
    unfold write_cell, re_cell. cbn. now rewrite !text6.
  - intros x X. assert (H := flat_ok _ _ B _ X). unfold cell_nums in H. rewrite !Forall_cons_iff in H.
    unfold write_cell, re_cell. cbn. now rewrite !text6.
  - intros x X. assert (H := flat_ok _ _ A _ X). unfold snax_nums in H. rewrite !Forall_cons_iff in H.
    unfold write_snax, re_snax. cbn. now rewrite !text6.
Qed.
Print Assumptions C28_text_stable.

(** A snaxel stays on its edge, and snaxels do not change places. *)
Definition position (s : fsnax) (x : R) : Prop := fx_d s = Fin false x.
Lemma position_again s x : double (fx_d s) -> position s x -> position (re_snax s) (again 6 x).
Proof.
  unfold position, re_snax. cbn [fx_d]. intros D E. rewrite E in *. destruct D as [F A]. apply reprint_fin. now apply finite6.
Qed.
Theorem C28_on_edge old s s' : Forall double (snake_nums s) -> read_snake old (write_snake s) = Ok (s', []) ->
  forall i x, (exists p, nth_error (snd (fk_snaxs s)) i = Some p /\ position p x) -> 0 <= x <= 1 ->
  exists p' x', nth_error (snd (fk_snaxs s')) i = Some p' /\ position p' x' /\ 0 <= x' <= 1 /\
  forall j y, (exists q, nth_error (snd (fk_snaxs s)) j = Some q /\ position q y) -> x <= y ->
  exists q' y', nth_error (snd (fk_snaxs s')) j = Some q' /\ position q' y' /\ x' <= y'.
Proof.
  intros D R i x (p & P & X) Hx. rewrite (snake_read_again old s D) in R. injection R as <-.
  cbn [fk_snaxs snd]. unfold snake_nums in D. rewrite !Forall_app in D. destruct D as (A & _).
  assert (Dd : forall q, In q (snd (fk_snaxs s)) -> double (fx_d q)).
  { intros q Q. assert (H := flat_ok _ _ A _ Q). unfold snax_nums in H. rewrite !Forall_cons_iff in H. easy. }
  exists (re_snax p), (again 6 x). split; [now apply map_nth_error|]. split.
  { apply position_again; [apply Dd; now apply nth_error_In in P|exact X]. }
  split.
  { split; [now apply again_pos|]. apply (again_below 6 x 1 1000000); [apply (one_double false)| |lra].
    rewrite bpow_ten by easy. change (10 ^ 6)%Z with 1000000%Z. ring. }
  intros j y (q & Q & Y) L. exists (re_snax q), (again 6 y). split; [now apply map_nth_error|]. split.
  { apply position_again; [apply Dd; now apply nth_error_In in Q|exact Y]. }
  unfold again. apply round_le; [apply fmt_valid|apply valid_rnd_N|]. apply Rmult_le_compat_r; [apply bpow_ge_0|].
  apply IZR_le. now apply printed_mono.
Qed.
Print Assumptions C28_on_edge.

(** A snake with two snaxels on one edge. *)
Definition small_snake (d e : R) (inside : list bool) : fsnake :=
  mkFSnake (true, [mkFSnax 1 (Fin false d) (Fin true 1) 7 1 2 0 1; mkFSnax 2 (Fin false e) (Fin false (/ 2)) 7 1 2 0 2])
           (true, [mkFCell 1 3 (Fin false 0) (Fin false 1) (Fin false 0)])
           (true, [mkFCell 1 5 (Fin false 0) (Fin false 0) (Fin false 1)])
           (small_mesh (/ 2)) inside false.
Lemma small_snake_double d e l : double (Fin false d) -> double (Fin false e) -> Forall double (snake_nums (small_snake d e l)).
Proof.
  intros D E. unfold snake_nums. rewrite !Forall_app. repeat split; [..|apply small_mesh_double, half_double]; cbn;
  repeat first [apply Forall_nil | apply Forall_cons; [first [exact D | exact E | apply zero_double | apply one_double | apply half_double]|]].
Qed.
Example C28_example : Forall double (snake_nums (small_snake (/ 2) 1 [true; false])) /\ in_mesh (fk_conn (small_snake (/ 2) 1 [true; false])).
Proof. split; [apply small_snake_double; [apply half_double|apply one_double]|easy]. Qed.

(** A snaxel inside its edge comes back at the end of the edge, at the position of
    another snaxel. *)
Lemma near_one : reprint 6 (Fin false (IZR 1099511627775 * bpow radix2 (-40))) = Fin false 1.
Proof.
  set (x := IZR 1099511627775 * bpow radix2 (-40)).
  assert (X : x = 1 - / 1099511627776).
  { unfold x. change (-40)%Z with (- (40))%Z. rewrite two_inv by easy. change (2 ^ 40)%Z with 1099511627776%Z. lra. }
  assert (P : printed 6 x = 1000000%Z).
  { unfold printed. apply Znearest_imp. rewrite bpow_ten by easy. change (10 ^ 6)%Z with 1000000%Z. rewrite X.
    apply Rabs_def1; lra. }
  rewrite reprint_fin.
  - f_equal. unfold again. change (Z.of_nat 6) with 6%Z. rewrite P, bpow_opp, bpow_ten by easy. change (10 ^ 6)%Z with 1000000%Z.
    replace (1000000 * / 1000000) with 1 by lra. apply round_generic; [apply valid_rnd_N|apply (one_double false)].
  - apply finite6; apply (dyadic_ok false 1099511627775 (-40)); easy.
Qed.
Theorem C28_refuted : exists s p q, Forall double (snake_nums s) /\ snd (fk_snaxs s) = [p; q] /\
  (exists x, position p x /\ 0 < x < 1) /\ position q 1 /\
  forall old, exists s' p' q', read_snake old (write_snake s) = Ok (s', []) /\ snd (fk_snaxs s') = [p'; q'] /\
  position p' 1 /\ position q' 1.
Proof.
  set (x := IZR 1099511627775 * bpow radix2 (-40)).
  assert (D : Forall double (snake_nums (small_snake x 1 []))).
  { apply small_snake_double; [now apply dyadic_ok|apply one_double]. }
  exists (small_snake x 1 []). do 2 eexists. split; [exact D|]. split; [reflexivity|]. split; [|split; [reflexivity|]].
  - exists x. split; [reflexivity|]. unfold x. change (-40)%Z with (- (40))%Z. rewrite two_inv by easy.
    change (2 ^ 40)%Z with 1099511627776%Z. lra.
  - intros old. do 3 eexists. split; [now apply snake_read_again|]. split; [reflexivity|]. split.
    + unfold position, re_snax. cbn [fx_d]. apply near_one.
    + unfold position, re_snax. cbn [fx_d]. apply (reprint_exact 6 false 1 1000000 (one_double false)).
      rewrite bpow_ten by easy. change (10 ^ Z.of_nat 6)%Z with 1000000%Z. ring.
Qed.
Print Assumptions C28_refuted.
(** Whether a mesh vertex is inside the snake does not come back. *)
Theorem C28_inside_refuted : exists s t old, Forall double (snake_nums s) /\ Forall double (snake_nums t) /\
  fk_inside s <> fk_inside t /\ read_snake old (write_snake s) = read_snake old (write_snake t).
Proof.
  exists (small_snake (/ 2) 1 [true; false]), (small_snake (/ 2) 1 [false; true]), (small_snake 1 1 []).
  assert (D : forall l, Forall double (snake_nums (small_snake (/ 2) 1 l))).
  { intros l. apply small_snake_double; [apply half_double|apply one_double]. }
  split; [apply D|]. split; [apply D|]. split; [easy|]. reflexivity.
Qed.
Print Assumptions C28_inside_refuted.
