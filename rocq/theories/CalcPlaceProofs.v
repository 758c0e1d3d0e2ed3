(** The velocities of the points of a triangle when a snaxel moves. *)
From Coq Require Import Reals List Lia Lra ZArith.
From Coquelicot Require Import Coquelicot.
From Verif Require Import Base RsvsMath SpecRsvs SpecCentre Calc SpecCalc RsvsCentreProofs CalcProofs CalcTriProofs CalcChain CalcCentre.
Import ListNotations.
Set Implicit Arguments.
Open Scope R_scope.

(** ** What is calculated *)
Lemma concat_sum A B (f : A -> outcome (list B)) (h : B -> R) l r : concat_all f l = Ok r ->
  total h r = total (fun a => match f a with Ok x => total h x | _ => 0 end) l.
Proof.
  revert r. induction l as [|a l IH]; cbn [concat_all]; intros r H; [injection H as <-; reflexivity|].
  destruct (f a) as [x| | |] eqn:E; cbn [bind] in H; try discriminate. destruct (concat_all f l) as [y| | |]; cbn [bind] in H; try discriminate.
  injection H as <-. rewrite total_app, (IH _ eq_refl). change (total ?g (a :: l)) with (g a + total g l). cbv beta. rewrite E. reflexivity.
Qed.
Lemma concat_all_map A B C (f : B -> outcome (list C)) (g : A -> B) l : concat_all f (map g l) = concat_all (fun a => f (g a)) l.
Proof. induction l as [|a l IH]; cbn; [auto|]. rewrite IH. reflexivity. Qed.
Lemma total_combine A (dflt : A) (G : nat -> A -> R) s :
  total (fun jq => G (fst jq) (snd jq)) (combine (seq 0 (length s)) s) = sum_to (length s) (fun j => G j (nth j s dflt)).
Proof.
  unfold sum_to. fold (total (fun j => G j (nth j s dflt)) (seq 0 (length s))).
  assert (Q : forall b, total (fun jq => G (fst jq) (snd jq)) (combine (seq b (length s)) s) = total (fun j => G j (nth (j - b)%nat s dflt)) (seq b (length s))).
  { induction s as [|x r IH]; intros b; [reflexivity|]. cbn [length seq combine].
    change (total ?g (?z :: ?l)) with (g z + total g l). change (total ?g (b :: ?l)) with (g b + total g l). cbn [fst snd].
    rewrite Nat.sub_diag. cbn [nth]. f_equal. rewrite IH. apply total_ext. intros j Hj. apply in_seq in Hj.
    replace (j - b)%nat with (S (j - S b)) by lia. reflexivity. }
  rewrite Q. apply total_ext. intros j _. rewrite Nat.sub_0_r. reflexivity.
Qed.

Lemma snax_dir_is e i g : snax_dir e i = Ok g -> forall k, g k = end_of e i k - start_of e i k.
Proof.
  unfold snax_dir. intros H k. destruct (lookup_snax i (snaxs e)) as [x| | |] eqn:E; cbn [bind] in H; try discriminate.
  destruct (lookup (x_from x) (mesh_verts e)) as [a| | |] eqn:Ea; cbn [bind] in H; try discriminate.
  destruct (lookup (x_to x) (mesh_verts e)) as [b| | |] eqn:Eb; cbn [bind] in H; try discriminate. injection H as <-.
  unfold end_of, start_of, snax_of, mesh_at. rewrite (lookup_snax_Ok _ _ E).
  rewrite (proj1 (lookup_Ok _ _ origin Ea)), (proj1 (lookup_Ok _ _ origin Eb)). reflexivity.
Qed.
Lemma corner_coord_is e d q v : placed e d -> corner_coord e q = Ok v -> fst q = t_mesh \/ fst q = t_snake ->
  exists x, v = [x] /\ same3 x (corner_at e d q).
Proof.
  intros [P _] H T. destruct q as [t i]. cbn [fst] in T. unfold corner_coord in H. unfold corner_at. cbn [fst snd].
  destruct T as [->| ->]; cbn in H |- *.
  - destruct (lookup i (mesh_verts e)) as [x| | |] eqn:E; cbn [bind] in H; try discriminate. injection H as <-. exists x. split; auto.
    unfold mesh_at. rewrite (proj1 (lookup_Ok _ _ origin E)). intros k _. reflexivity.
  - destruct (lookup i (snake_verts e)) as [x| | |] eqn:E; cbn [bind] in H; try discriminate. injection H as <-. exists x. split; auto.
    apply P. apply (lookup_Ok _ _ origin E).
Qed.
Lemma corners_are e d l pts : placed e d -> concat_all (corner_coord e) l = Ok pts -> (forall q, In q l -> fst q = t_mesh \/ fst q = t_snake) ->
  length pts = length l /\ forall v, (v < length l)%nat -> same3 (pt pts v) (polygon e d l v).
Proof.
  intros P. revert pts. induction l as [|q l IH]; cbn [concat_all]; intros pts H T; [injection H as <-; split; [auto|cbn; lia]|].
  destruct (corner_coord e q) as [x| | |] eqn:E; cbn [bind] in H; try discriminate.
  destruct (concat_all (corner_coord e) l) as [y| | |]; cbn [bind] in H; try discriminate. injection H as <-.
  destruct (@corner_coord_is _ _ _ _ P E (T q (or_introl eq_refl))) as (z & -> & Ez).
  destruct (IH _ eq_refl ltac:(intros; apply T; right; auto)) as [L S3]. split; [cbn; congruence|].
  intros [|v] Lv; [exact Ez|]. cbn in Lv. apply (S3 v). lia.
Qed.

Lemma sum_entries_is ws k q : total (fun w : nat * nat * R => if andb (Nat.eqb (fst (fst w)) k) (Nat.eqb (snd (fst w)) q) then snd w else 0) ws = sum_entries ws k q.
Proof. reflexivity. Qed.
Section Entries.
Variables (st : statics) (e : tri_env) (d : Z -> R) (act : list Z) (i : Z) (q : nat).
Hypotheses (Hp : placed e d) (Hact : NoDup act) (Hi : index_of i act = Some q) (H1 : 0 <= centre_a st) (H2 : 0 <= centre2_a st).

Lemma same_column i' q' : index_of i' act = Some q' -> Nat.eqb q' q = Z.eqb i' i.
Proof.
  intros E. destruct (Z.eqb_spec i' i) as [->|N].
  - rewrite Hi in E. injection E as <-. apply Nat.eqb_refl.
  - destruct (Nat.eqb_spec q' q) as [->|]; auto. exfalso. apply N. apply index_of_nth in E. pose proof (index_of_nth _ _ Hi). congruence.
Qed.
Lemma corner_jac_sum n jac j i' g k : (k < 3)%nat ->
  sum_entries (corner_jac n jac act j i' g) k q = if Z.eqb i' i then sum_to 3 (fun l => jac k (j + n * l)%nat * g l) else 0.
Proof.
  intros L. unfold corner_jac. destruct (index_of i' act) as [q'|] eqn:E.
  - pose proof (same_column _ E) as Q. unfold sum_entries. cbn [flat_map map seq app fold_right fst snd]. rewrite Q.
    destruct (Z.eqb i' i); destruct k as [|[|[|k]]]; [| | |lia| | | |lia]; cbn [Nat.eqb andb]; unfold sum_to; cbn [map seq fold_right]; ring.
  - destruct (Z.eqb_spec i' i) as [->|]; [congruence|]. reflexivity.
Qed.

Definition speed (p : Z * Z) (k : nat) : R :=
  if is_centre e p then
    let l := corners_of e (tripoint_of e (snd p)) in let n := length l in
    sum_to n (fun v => sum_to 3 (fun m => slope n (polygon e d l) k v m * pull e i (nth v l (t_mesh, 0%Z)) m))
  else pull e i p k.

Lemma sum_to_abs n f : Rabs (sum_to n f) <= sum_to n (fun j => Rabs (f j)).
Proof. apply (total_abs f (seq 0 n)). Qed.
Lemma sum_to_le n f g : (forall j, (j < n)%nat -> f j <= g j) -> sum_to n f <= sum_to n g.
Proof. intros H. apply (total_le f g (seq 0 n)). intros j Hj. apply in_seq in Hj. apply H. lia. Qed.
Lemma sum_to_minus n f g : sum_to n f - sum_to n g = sum_to n (fun j => f j - g j).
Proof.
  unfold Rminus. rewrite sum_to_plus. f_equal. rewrite (@sum_to_ext n (fun j => - g j) (fun j => -1 * g j)) by (intros; ring).
  rewrite sum_to_scale. ring.
Qed.

(** A centre, given its corners. *)
Lemma centre_close l pts c k : concat_all (corner_coord e) l = Ok pts -> centroid_calc st (centroid_new pts) = Ok c ->
  (forall q, In q l -> fst q = t_mesh \/ fst q = t_snake) -> let n := length l in
  / 1000000000000000 <= outline n (polygon e d l) -> (forall v, (v < n)%nat -> 0 < side n (polygon e d l) v) -> (k < 3)%nat ->
  Rabs (sum_to n (fun v => sum_to 3 (fun m => c_jac c k (v + n * m)%nat * pull e i (nth v l (t_mesh, 0%Z)) m))
    - sum_to n (fun v => sum_to 3 (fun m => slope n (polygon e d l) k v m * pull e i (nth v l (t_mesh, 0%Z)) m)))
  <= sum_to n (fun v => sum_to 3 (fun m => slope_error n (polygon e d l) (centre_a st + centre2_a st) (centre2_a st) k v m * Rabs (pull e i (nth v l (t_mesh, 0%Z)) m))).
Proof.
  intros Ep Ec T n Ho Hs Lk. destruct (corners_are _ Hp Ep T) as [Ln S3]. fold n in Ln, S3.
  assert (X : forall v m, (v < n)%nat -> (m < 3)%nat -> pt pts v m = polygon e d l v m) by (intros; apply S3; auto).
  rewrite sum_to_minus. eapply Rle_trans; [apply sum_to_abs|]. apply sum_to_le. intros v Lv.
  rewrite sum_to_minus. eapply Rle_trans; [apply sum_to_abs|]. apply sum_to_le. intros m Lm.
  rewrite <- Rmult_minus_distr_r, Rabs_mult. apply Rmult_le_compat_r; [apply Rabs_pos|].
  rewrite <- (@slope_ext n _ _ X), <- (@slope_error_ext n _ _ X) by auto. rewrite <- Ln. apply jac_close; auto; rewrite ?Ln; auto.
  - rewrite (@outline_ext n _ _ X). auto.
  - intros j Lj. rewrite (@side_ext n _ _ X); auto.
Qed.

Lemma point_close centre p ws k : point_jac st e act centre p = Ok ws -> shaped e d p -> (centre = true \/ is_centre e p = false) ->
  fst p = t_mesh \/ fst p = t_snake \/ fst p = t_tri ->
  (forall x, fst p = t_tri -> lookup (snd p) (trivert e) = Ok x -> tripoint_of e (snd p) = x) -> (k < 3)%nat ->
  Rabs (sum_entries ws k q - speed p k) <= place_error st e d i p k.
Proof.
  intros H S C T LK Lk. unfold speed, place_error. unfold point_jac in H. destruct p as [t j]. cbn [fst snd] in *.
  destruct T as [->|[->| ->]].
  - (* a vertex of the mesh *)
    cbn in H. injection H as <-. unfold is_centre, pull. cbn. rewrite Rminus_0_r, Rabs_R0. lra.
  - change (Z.eqb t_snake t_snake) with true in H. cbv iota in H. unfold is_centre. cbn [fst andb Z.eqb t_snake t_tri Pos.eqb].
    unfold pull. cbn [fst snd]. change (Z.eqb t_snake t_snake) with true. cbn [andb].
    destruct (index_of j act) as [q'|] eqn:E.
    + destruct (snax_dir e j) as [g| | |] eqn:Eg; cbn [bind] in H; try discriminate. injection H as <-.
      pose proof (same_column _ E) as Q. pose proof (snax_dir_is _ _ Eg) as G. unfold sum_entries. cbn [map seq fold_right fst snd]. rewrite Q.
      destruct (Z.eqb_spec j i) as [->|N].
      * rewrite <- G. destruct k as [|[|[|k]]]; [| | |lia]; cbn [Nat.eqb andb]; match goal with |- Rabs ?x <= 0 => replace x with 0 by ring end; rewrite Rabs_R0; lra.
      * rewrite !Bool.andb_false_r. match goal with |- Rabs ?x <= 0 => replace x with 0 by ring end; rewrite Rabs_R0; lra.
    + destruct (Z.eqb_spec j i) as [->|N]; [congruence|]. cbn in H. injection H as <-. cbn. rewrite Rminus_0_r, Rabs_R0. lra.
  - change (Z.eqb t_tri t_snake) with false in H. cbv iota in H. change (Z.eqb t_tri t_tri) with true in H. cbn [andb] in H.
    unfold is_centre in *. cbn [fst snd] in *. change (Z.eqb t_tri t_tri) with true in *. cbn [andb] in *.
    unfold shaped, is_centre in S. cbn [fst snd] in S. change (Z.eqb t_tri t_tri) with true in S. cbn [andb] in S.
    destruct centre.
    2:{ destruct C as [C|C]; [discriminate|]. rewrite C. injection H as <-. unfold pull. cbn. rewrite Rminus_0_r, Rabs_R0. lra. }
    destruct (lookup j (trivert e)) as [tp| | |] eqn:Et; cbn [bind] in H; try discriminate.
    rewrite (LK _ eq_refl eq_refl) in *. unfold moving in *.
    destruct (Z.eqb_spec (tp_ptype tp) t_tri) as [Tt|Tt]; cbn [orb] in *.
    + destruct (S eq_refl) as (N4 & Ty & Ho & Hs). clear S C.
      assert (Ecs : corners_of e tp = assoc [] (tp_parent tp) (trisurf e)) by (unfold corners_of; rewrite Tt; reflexivity).
      destruct (lookup (tp_parent tp) (trisurf e)) as [s| | |] eqn:Es; cbn [bind] in H; try discriminate.
      rewrite (proj1 (lookup_Ok _ _ [] Es)) in Ecs. rewrite Ecs in *.
      destruct (Nat.eqb_spec (length s) 3) as [N3|_]; [lia|].
      destruct (concat_all (corner_coord e) s) as [pts| | |] eqn:Ep; cbn [bind] in H; try discriminate.
      destruct (centroid_calc st (centroid_new pts)) as [c| | |] eqn:Ec; cbn [bind] in H; try discriminate.
      pose proof (@centre_close s pts c k Ep Ec Ty Ho Hs Lk) as K.
      match type of K with Rabs (?a - _) <= _ => replace (sum_entries ws k q) with a; [exact K|] end. clear K.
      pose proof (proj2 (@concat_all_Ok _ _ _ _ _ H)) as Each.
      change (sum_entries ws k q) with (total (fun w : nat * nat * R => if andb (Nat.eqb (fst (fst w)) k) (Nat.eqb (snd (fst w)) q) then snd w else 0) ws).
      rewrite (@concat_sum _ _ _ _ _ _ H).
      rewrite <- (@total_combine (Z * Z) (t_mesh, 0%Z) (fun v x => sum_to 3 (fun m => c_jac c k (v + length s * m)%nat * pull e i x m)) s).
      apply total_ext. intros [v x] Hin. destruct (Each _ Hin) as (y & Ey). cbn [fst snd] in Ey |- *. rewrite Ey.
      unfold pull. destruct (Z.eqb_spec (fst x) t_snake) as [Tx|Tx]; cbn [andb] in Ey |- *.
      * destruct (in_map act (snd x)) eqn:Em.
        -- destruct (snax_dir e (snd x)) as [g| | |] eqn:Eg; cbn [bind] in Ey; try discriminate. injection Ey as <-.
           rewrite sum_entries_is, corner_jac_sum; auto.
           destruct (Z.eqb_spec (snd x) i) as [Ex|Ex]; [|rewrite sum3; ring]. apply sum_to_ext. intros m Lm. rewrite (snax_dir_is _ _ Eg), Ex. reflexivity.
        -- injection Ey as <-. destruct (Z.eqb_spec (snd x) i) as [Ex|Ex]; [|rewrite sum3; cbn; ring].
           exfalso. unfold in_map in Em. rewrite Ex, Hi in Em. discriminate.
      * injection Ey as <-. rewrite sum3. cbn. ring.
    + destruct (Z.eqb_spec (tp_ptype tp) t_snake) as [Ts|Ts].
      2:{ injection H as <-. unfold pull. cbn. rewrite Rminus_0_r, Rabs_R0. lra. }
      destruct (S eq_refl) as (N4 & Ty & Ho & Hs). clear S C.
      assert (Ecs : corners_of e tp = map (fun i => (t_snake, i)) (assoc [] (tp_parent tp) (snake_surfs e))) by (unfold corners_of; rewrite Ts; reflexivity).
      destruct (lookup (tp_parent tp) (snake_surfs e)) as [s| | |] eqn:Es; cbn [bind] in H; try discriminate.
      rewrite (proj1 (lookup_Ok _ _ [] Es)) in Ecs. rewrite Ecs in *. rewrite map_length in *.
      destruct (Nat.eqb_spec (length s) 3) as [N3|_]; [lia|].
      rewrite <- (concat_all_map (corner_coord e) (fun i => (t_snake, i)) s) in H.
      destruct (concat_all (corner_coord e) (map (fun i => (t_snake, i)) s)) as [pts| | |] eqn:Ep; cbn [bind] in H; try discriminate.
      destruct (centroid_calc st (centroid_new pts)) as [c| | |] eqn:Ec; cbn [bind] in H; try discriminate.
      pose proof (@centre_close (map (fun i => (t_snake, i)) s) pts c k Ep Ec Ty) as K. rewrite map_length in K. specialize (K Ho Hs Lk).
      match type of K with Rabs (?a - _) <= _ => replace (sum_entries ws k q) with a; [exact K|] end. clear K.
      pose proof (proj2 (@concat_all_Ok _ _ _ _ _ H)) as Each.
      change (sum_entries ws k q) with (total (fun w : nat * nat * R => if andb (Nat.eqb (fst (fst w)) k) (Nat.eqb (snd (fst w)) q) then snd w else 0) ws).
      rewrite (@concat_sum _ _ _ _ _ _ H).
      transitivity (sum_to (length s) (fun v => sum_to 3 (fun m => c_jac c k (v + length s * m)%nat * pull e i (t_snake, nth v s 0%Z) m))).
      { apply sum_to_ext. intros v Lv. rewrite (nth_indep _ (t_mesh, 0%Z) (t_snake, 0%Z)) by (rewrite map_length; auto).
        rewrite (map_nth (fun i => (t_snake, i)) s 0%Z v). reflexivity. }
      rewrite <- (@total_combine Z 0%Z (fun v x => sum_to 3 (fun m => c_jac c k (v + length s * m)%nat * pull e i (t_snake, x) m)) s).
      apply total_ext. intros [v x] Hin. destruct (Each _ Hin) as (y & Ey). cbn [fst snd] in Ey |- *. rewrite Ey.
      unfold pull. cbn [fst snd]. change (Z.eqb t_snake t_snake) with true. cbn [andb].
      destruct (snax_dir e x) as [g| | |] eqn:Eg; cbn [bind] in Ey; try discriminate. injection Ey as <-.
      rewrite sum_entries_is, corner_jac_sum; auto.
      destruct (Z.eqb_spec x i) as [Ex|Ex]; [|rewrite sum3; ring]. apply sum_to_ext. intros m Lm. rewrite (snax_dir_is _ _ Eg), Ex. reflexivity.
Qed.
End Entries.
