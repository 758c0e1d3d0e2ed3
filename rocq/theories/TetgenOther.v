(** Metrics, boundary faces and SU2 files. *)
From Verif Require Import Base Containers Mesh Flood Edit Order Tetgen SpecMesh SpecOrder SpecTetgen ContainersProofs MeshProofs FloodProofs CloseProofs SwitchProofs TetgenProofs TetgenMesh TetgenWrite PropsOrder.
Import Mesh.
Set Implicit Arguments.
Open Scope Z_scope.

(** ** Metrics *)
Lemma writes A W (pos : W -> Z) (val : Z -> A) (body : W -> list (option A) -> outcome (list (option A))) ws :
  forall l, (forall w l', In w ws -> body w l' = put l' (pos w) (val (pos w))) ->
  (forall w, In w ws -> 0 <= pos w < Z.of_nat (length l)) ->
  exists l', for_each ws body l = Ok l' /\ length l' = length l /\
    (forall q, ~ In (Z.of_nat q) (map pos ws) -> nth_error l' q = nth_error l q) /\
    (forall q, In (Z.of_nat q) (map pos ws) -> nth_error l' q = Some (Some (val (Z.of_nat q)))).
Proof.
  induction ws as [|w ws IH]; intros l Hb Hr.
  - exists l. split; [reflexivity|]. split; auto. split; auto. intros w [].
  - pose proof (Hr w (or_introl eq_refl)) as Rw.
    destruct (@modify_Ok _ l (pos w) (fun _ => Some (val (pos w)))) as [a [N E]]; [exact Rw|].
    destruct (IH (upd l (Z.to_nat (pos w)) (Some (val (pos w))))) as [l' [E' [L' [U' V']]]].
    + intros; apply Hb; simpl; auto.
    + intros w' Hw. rewrite upd_length. apply Hr. simpl; auto.
    + exists l'. split; [|split; [|split]].
      * cbn [for_each]. rewrite Hb by (simpl; auto). unfold put. rewrite E. exact E'.
      * rewrite L', upd_length. reflexivity.
      * intros q Hq. rewrite U' by (intros Q; apply Hq; simpl; auto). apply nth_error_upd_other. intros Q. apply Hq. simpl. left. lia.
      * intros q Hq. destruct (in_dec Z.eq_dec (Z.of_nat q) (map pos ws)) as [Y|Y]; [auto|].
        destruct Hq as [Hq|Hq]; [|contradiction]. rewrite U' by auto. rewrite <- Hq. replace q with (Z.to_nat (pos w)) by lia.
        rewrite nth_error_upd_same by lia. reflexivity.
Qed.
Lemma metric_written REAL (s : tetin REAL) start num mtrs : whole s -> 0 <= start -> 0 <= num -> start + num <= in_npoints s ->
  exists s', point_metric start num mtrs s = Ok s' /\ same_but_metrics s s' /\ length (in_mtrs s') = length (in_mtrs s) /\
    forall p j, Z.of_nat j < in_nmtrs s -> metric s' p j =
      if ((start <=? Z.of_nat p) && (Z.of_nat p <? start + num) && (j <? length mtrs)%nat)%bool then Some (nth_error mtrs j) else metric s p j.
Proof.
  intros [W0 [W1 W2]] H1 H2 H3. unfold point_metric.
  destruct (Z.ltb_spec (in_npoints s) (start + num)) as [Q|_]; [lia|]. destruct (Z.ltb_spec start 0) as [Q|_]; [lia|].
  set (count := Z.to_nat (Z.min (Z.of_nat (length mtrs)) (in_nmtrs s))).
  set (ws := list_prod (upto (Z.to_nat num) start) (upto count 0)).
  assert (K : forall w, In w ws <-> start <= fst w < start + num /\ 0 <= snd w < Z.of_nat count).
  { intros [i j]. unfold ws. rewrite in_prod_iff, !upto_In. simpl. lia. }
  assert (X : mtrs = [] \/ exists x0 : REAL, In x0 mtrs) by (destruct mtrs as [|x0 r]; [auto|right; exists x0; simpl; auto]).
  destruct X as [Em|[x0 _]].
  { assert (count = 0)%nat by (subst count; rewrite Em; simpl; lia). unfold ws. rewrite H. simpl upto.
    assert (Z0 : forall l : list Z, list_prod l (@nil Z) = []) by (induction l; simpl; auto). rewrite Z0. cbn [for_each bind].
    eexists. split; [reflexivity|]. split; [repeat split|]. split; [reflexivity|]. intros p j Hj. rewrite Em. simpl length.
    replace (j <? 0)%nat with false by (symmetry; apply Nat.ltb_ge; lia). rewrite andb_false_r. reflexivity. }
  set (body := fun (ij : Z * Z) (l : list (option REAL)) => do x <- at_ mtrs (snd ij) ; put l (fst ij * in_nmtrs s + snd ij) x).
  assert (P : 0 < in_nmtrs s -> forall w, In w ws -> 0 <= fst w * in_nmtrs s + snd w < Z.of_nat (length (in_mtrs s)) /\ (fst w * in_nmtrs s + snd w) mod in_nmtrs s = snd w).
  { intros Hn w Hw. apply K in Hw. assert (snd w < in_nmtrs s) by (subst count; lia). split; [rewrite W2; rewrite Nat2Z.inj_mul, !Z2Nat.id by lia; nia|].
    rewrite Z.add_comm, Z.mod_add by lia. apply Z.mod_small. lia. }
  assert (E0 : in_nmtrs s = 0 -> ws = []).
  { intros H0. destruct ws as [|w r] eqn:Ew; auto. exfalso. assert (In w (w :: r)) as Q by (simpl; auto). apply K in Q. subst count. lia. }
  assert (D : in_nmtrs s = 0 \/ 0 < in_nmtrs s) by lia.
  destruct (@writes REAL (Z * Z) (fun ij => fst ij * in_nmtrs s + snd ij) (fun q => nth (Z.to_nat (q mod in_nmtrs s)) mtrs x0) body ws (in_mtrs s))
    as [l' [E [L' [U V]]]].
  - intros w l' Hw. unfold body. destruct D as [D|D]; [rewrite (E0 D) in Hw; destruct Hw|].
    destruct (P D w Hw) as [_ Pm]. apply K in Hw. destruct (@at_in _ mtrs (snd w)) as [a [Na Aa]]; [subst count; lia|]. rewrite Aa. cbn [bind].
    rewrite Pm, (nth_error_nth _ _ _ Na). reflexivity.
  - intros w Hw. destruct D as [D|D]; [rewrite (E0 D) in Hw; destruct Hw|]. apply P; auto.
  - rewrite E. cbn [bind]. eexists. split; [reflexivity|]. split; [repeat split|]. split; [exact L'|].
    intros p j Hj. unfold metric. cbn [in_nmtrs in_mtrs]. destruct (Z.ltb_spec (Z.of_nat j) (in_nmtrs s)) as [_|Q]; [|lia].
    set (q := (p * Z.to_nat (in_nmtrs s) + j)%nat).
    assert (Zq : Z.of_nat q = Z.of_nat p * in_nmtrs s + Z.of_nat j) by (unfold q; rewrite Nat2Z.inj_add, Nat2Z.inj_mul, Z2Nat.id by lia; reflexivity).
    assert (Mq : Z.of_nat q mod in_nmtrs s = Z.of_nat j) by (rewrite Zq, Z.add_comm, Z.mod_add by lia; apply Z.mod_small; lia).
    destruct (((start <=? Z.of_nat p) && (Z.of_nat p <? start + num) && (j <? length mtrs)%nat)%bool) eqn:B.
    + apply andb_prop in B. destruct B as [B B3]. apply andb_prop in B. destruct B as [B1 B2].
      apply Z.leb_le in B1. apply Z.ltb_lt in B2. apply Nat.ltb_lt in B3. rewrite V.
      * rewrite Mq, Nat2Z.id. f_equal. symmetry. apply nth_error_nth'. exact B3.
      * apply in_map_iff. exists (Z.of_nat p, Z.of_nat j). split; [simpl; lia|]. apply K. simpl. subst count. lia.
    + apply U. intros Q. apply in_map_iff in Q. destruct Q as [w [Q1 Q2]].
      assert (Dn : 0 < in_nmtrs s) by lia. destruct (P Dn w Q2) as [_ Pm]. apply K in Q2. rewrite Q1, Mq in Pm.
      assert (fst w = Z.of_nat p) by nia.
      apply not_true_iff_false in B. apply B. rewrite !andb_true_iff, Z.leb_le, Z.ltb_lt, Nat.ltb_lt. subst count. lia.
Qed.
Lemma metric_throws REAL (s : tetin REAL) start num mtrs : in_npoints s < start + num \/ start < 0 -> point_metric start num mtrs s = Throw.
Proof.
  intros H. unfold point_metric. destruct (Z.ltb_spec (in_npoints s) (start + num)); [reflexivity|].
  destruct (Z.ltb_spec start 0); [reflexivity|lia].
Qed.

(** ** Faces of a boundary *)
Lemma marked_log m pts : NoDup (map ve_index (verts m)) -> (forall v, In v pts -> has_vert m v) ->
  exists log, for_each pts (fun v l => modify l (find ve_index (verts m) v) (fun _ => true)) (repeat false (length (verts m))) = Ok log /\
    length log = length (verts m) /\ forall q a, nth_error (verts m) q = Some a -> nth_error log q = Some true <-> In (ve_index a) pts.
Proof.
  intros ND H.
  assert (G : forall l, length l = length (verts m) -> exists log, for_each pts (fun v l => modify l (find ve_index (verts m) v) (fun _ => true)) l = Ok log /\
    length log = length (verts m) /\ forall q a, nth_error (verts m) q = Some a -> nth_error log q = Some true <-> nth_error l q = Some true \/ In (ve_index a) pts).
  { induction pts as [|v pts IH]; intros l HL.
    - exists l. split; [reflexivity|]. split; auto. intros q a _. simpl. tauto.
    - destruct (H v (or_introl eq_refl)) as [b [Hb Eb]]. apply In_nth_error in Hb. destruct Hb as [k Hk].
      assert (Fv : find ve_index (verts m) v = Z.of_nat k) by (rewrite <- Eb; apply find_pos; auto).
      assert (k < length (verts m))%nat by (apply nth_error_Some; congruence).
      destruct (@modify_Ok _ l (Z.of_nat k) (fun _ => true)) as [x [Nx Ex]]; [lia|]. rewrite Nat2Z.id in *.
      destruct (IH ltac:(intros; apply H; simpl; auto) (upd l k true)) as [log [E [L Q]]]; [rewrite upd_length; auto|].
      exists log. split; [cbn [for_each]; rewrite Fv, Ex; exact E|]. split; auto. intros q a Ha. rewrite (Q q a Ha). simpl.
      destruct (Nat.eq_dec k q) as [<-|N].
      + assert (a = b) by congruence. subst b. rewrite nth_error_upd_same by lia. intuition auto.
      + rewrite nth_error_upd_other by auto. assert (v <> ve_index a).
        { intros ->. apply N. rewrite (@find_pos _ ve_index (verts m) q a ND Ha) in Fv. lia. }
        intuition congruence. }
  destruct (G (repeat false (length (verts m)))) as [log [E [L Q]]]; [apply repeat_length|]. exists log. split; auto. split; auto.
  intros q a Ha. rewrite (Q q a Ha). split; [|auto]. intros [K|K]; auto. apply nth_error_In in K. apply repeat_spec in K. discriminate.
Qed.
Lemma all_marked_ok m log pts vs : NoDup (map ve_index (verts m)) -> length log = length (verts m) ->
  (forall q a, nth_error (verts m) q = Some a -> nth_error log q = Some true <-> In (ve_index a) pts) -> (forall v, In v vs -> has_vert m v) ->
  exists b, all_marked m log vs = Ok b /\ (b = true <-> forall v, In v vs -> In v pts).
Proof.
  intros ND HL HQ. induction vs as [|v vs IH]; intros H.
  - exists true. split; [reflexivity|]. split; auto. intros _ v [].
  - destruct (H v (or_introl eq_refl)) as [a [Ha Ea]]. apply In_nth_error in Ha. destruct Ha as [q Hq].
    assert (q < length (verts m))%nat by (apply nth_error_Some; congruence).
    destruct (@at_in _ log (Z.of_nat q)) as [b [Nb Ab]]; [lia|]. rewrite Nat2Z.id in Nb.
    cbn [all_marked]. rewrite <- Ea, (@find_pos _ ve_index (verts m) q a ND Hq), Ab. cbn [bind]. pose proof (HQ q a Hq) as K. rewrite Nb in K. destruct b.
    + destruct IH as [b [E1 E2]]; [intros; apply H; simpl; auto|]. exists b. split; auto. rewrite E2. split.
      * intros G w [<-|Hw]; [apply K; reflexivity|auto].
      * intros G w Hw. apply G. simpl. auto.
    + exists false. split; auto. split; [discriminate|]. intros G. assert (Some false = Some true) by (apply K; apply G; simpl; auto). discriminate.
Qed.
Lemma boundary_faces_ok m pts : well_connected m -> outlined m -> (forall v, In v pts -> has_vert m v) ->
  exists bs, boundary_faces m pts = Ok bs /\
    Forall2 (fun s b => b = true <-> forall vs v, polygon (edge_joins m) (su_edgeind s) vs -> NoDup vs -> In v vs -> In v pts) (surfs m) bs.
Proof.
  intros W O H. assert (ND : NoDup (map ve_index (verts m))) by apply W.
  destruct (@marked_log m pts ND H) as [log [E [L Q]]]. unfold boundary_faces. rewrite E. cbn [bind].
  assert (O' : forall s, In s (surfs m) -> (3 <= length (su_edgeind s))%nat /\ exists vs, NoDup vs /\ polygon (edge_joins m) (su_edgeind s) vs) by exact O.
  clear O. induction (surfs m) as [|s ss IH]; [exists []; split; [reflexivity|constructor]|].
  destruct IH as [bs [E1 F1]]; [intros; apply O'; simpl; auto|].
  destruct (O' s (or_introl eq_refl)) as [H3 [vs [N P]]].
  assert (Ov : ordered_verts m (su_edgeind s) = Ok vs) by (apply C22_ordered_verts; auto; apply W).
  destruct (@all_marked_ok m log pts vs ND L Q) as [b [E2 E3]]; [intros v Hv; eapply corner_in; eauto|].
  exists (b :: bs). split.
  - cbn [omap_list]. rewrite Ov. cbn [bind]. rewrite E2. cbn [bind]. rewrite E1. reflexivity.
  - constructor; auto. rewrite E3. split.
    + intros G vs' v P' N' Hv. assert (Ok vs' = Ok vs) as K by (rewrite <- Ov; symmetry; apply C22_ordered_verts; auto; apply W).
      injection K as ->. auto.
    + intros G v Hv. eapply G; eauto.
Qed.
Lemma boundary_faces_unknown m pts v : In v pts -> ~ has_vert m v -> boundary_faces m pts = UB.
Proof.
  intros Hv N. unfold boundary_faces.
  assert (G : forall l, length l = length (verts m) -> for_each pts (fun v l => modify l (find ve_index (verts m) v) (fun _ => true)) l = UB).
  { induction pts as [|w pts IH]; intros l HL; [destruct Hv|]. cbn [for_each].
    destruct (find_spec ve_index (verts m) w) as [[F _]|[j [a [F1 [F2 F3]]]]].
    - unfold modify. rewrite F. reflexivity.
    - assert (j < length (verts m))%nat by (apply nth_error_Some; congruence).
      destruct (@modify_Ok _ l (Z.of_nat j) (fun _ => true)) as [x [Nx Ex]]; [lia|]. rewrite F1, Ex. cbn [bind]. apply IH.
      + destruct Hv as [<-|Hv]; auto. exfalso. apply N. exists a. split; auto. eapply nth_error_In; eauto.
      + rewrite upd_length. auto. }
  rewrite G by apply repeat_length. reflexivity.
Qed.

(** ** SU2 *)
Lemma NoDup_app_one A (l : list A) x : NoDup l -> ~ In x l -> NoDup (l ++ [x]).
Proof. intros H N. apply (NoDup_Add (a := x) (l := l)); [|auto]. rewrite <- (app_nil_r l) at 1. apply Add_app. Qed.
Lemma deincr_first first : first = 0 \/ first = 1 -> deincr first = - first.
Proof. intros [-> | ->]; reflexivity. Qed.
Lemma skipn_cons A (l : list A) k a : nth_error l k = Some a -> skipn k l = a :: skipn (S k) l.
Proof. revert k. induction l as [|x l IH]; intros [|k] H; simpl in *; try discriminate; [injection H as ->; reflexivity|]. exact (IH k H). Qed.
Lemma points_of_ok first l start n : first = 0 \/ first = 1 -> 0 <= start -> start + Z.of_nat n <= Z.of_nat (length l) ->
  points_of first l start n = Ok (from_0 first l (Z.to_nat start) n).
Proof.
  intros F H0 H. unfold points_of, from_0. rewrite (deincr_first F).
  assert (G : forall n k, 0 <= k -> start + k + Z.of_nat n <= Z.of_nat (length l) ->
    omap_list (fun j => do x <- at_ l (start + j) ; Ok (x + - first)) (upto n k) = Ok (map (fun x => x - first) (firstn n (skipn (Z.to_nat (start + k)) l)))).
  { clear n H. induction n as [|n IH]; intros k Hk H; [reflexivity|]. cbn [upto omap_list].
    destruct (@at_in _ l (start + k)) as [x [Nx Ax]]; [lia|]. rewrite Ax. cbn [bind]. rewrite IH by lia. cbn [bind]. rewrite (skipn_cons _ _ Nx). cbn [firstn map].
    do 2 f_equal. replace (Z.to_nat (start + (k + 1))) with (S (Z.to_nat (start + k))) by lia. reflexivity. }
  rewrite G by lia. rewrite Z.add_0_r. reflexivity.
Qed.
Lemma first_same_le l x : (first_same l x <= length l)%nat.
Proof. induction l as [|y l IH]; simpl; [lia|]. destruct (y =? x); lia. Qed.
Lemma first_same_in l x : In x l -> nth_error l (first_same l x) = Some x.
Proof. induction l as [|y l IH]; intros H; [destruct H|]. simpl. destruct (Z.eqb_spec y x) as [->|N]; [reflexivity|]. destruct H as [->|H]; [contradiction|]. auto. Qed.
Lemma first_same_out l x : ~ In x l -> first_same l x = length l.
Proof. induction l as [|y l IH]; intros H; [reflexivity|]. simpl. destruct (Z.eqb_spec y x) as [->|N]; [exfalso; apply H; simpl; auto|]. rewrite IH; auto. intros Q; apply H; simpl; auto. Qed.
Definition times (l : list Z) (d : Z) : Z := Z.of_nat (length (filter (Z.eqb d) l)).
Lemma times_app l x d : times (l ++ [x]) d = times l d + if d =? x then 1 else 0.
Proof. unfold times. rewrite filter_app, app_length. simpl. destruct (d =? x); simpl; lia. Qed.
Lemma times_none l x : ~ In x l -> times l x = 0.
Proof.
  intros H. unfold times. replace (filter (Z.eqb x) l) with (@nil Z); [reflexivity|]. symmetry. induction l as [|y l IH]; [reflexivity|]. simpl.
  destruct (Z.eqb_spec x y) as [->|N]; [exfalso; apply H; simpl; auto|]. apply IH. intros Q; apply H; simpl; auto.
Qed.
Definition tally (seen : list Z) (s : list Z * list Z) : Prop :=
  NoDup (fst s) /\ nth_error (fst s) 0 = Some 0 /\ snd s = map (times seen) (fst s) /\ forall x, In x (fst s) <-> x = 0 \/ In x seen.
Lemma bump seen x : forall diff j, NoDup diff -> nth_error diff j = Some x ->
  upd (map (times seen) diff) j (times seen x + 1) = map (times (seen ++ [x])) diff.
Proof.
  induction diff as [|y diff IH]; intros [|j] ND H; simpl in *; try discriminate; inversion ND as [|? ? N1 N2]; subst.
  - injection H as ->. rewrite times_app, Z.eqb_refl. f_equal. apply map_ext_in. intros d Hd. rewrite times_app.
    destruct (Z.eqb_spec d x) as [->|]; [contradiction|lia].
  - rewrite (IH j) by auto. f_equal. rewrite times_app. destruct (Z.eqb_spec y x) as [->|]; [|lia].
    exfalso. apply N1. eapply nth_error_In; eauto.
Qed.
Lemma count_marker_tally seen x s : tally seen s -> exists s', count_marker x s = Ok s' /\ tally (seen ++ [x]) s'.
Proof.
  destruct s as [diff num]. intros [ND [Z0 [E M]]]. cbn [fst snd] in *. unfold count_marker. subst num.
  destruct (in_dec Z.eq_dec x diff) as [I|I].
  - pose proof (first_same_in _ _ I) as F. assert (L : (first_same diff x < length diff)%nat) by (apply nth_error_Some; congruence).
    apply Nat.ltb_lt in L. rewrite L. apply Nat.ltb_lt in L.
    destruct (@modify_Ok _ (map (times seen) diff) (Z.of_nat (first_same diff x)) (fun n => n + 1)) as [a [Na Ea]]; [rewrite map_length; lia|].
    rewrite Nat2Z.id in *. rewrite nth_error_map, F in Na. injection Na as <-. rewrite Ea. cbn [bind]. eexists. split; [reflexivity|].
    split; [exact ND|]. split; [exact Z0|]. split; [apply bump; auto|]. cbn [fst]. intros y. rewrite M, in_app_iff. simpl.
    pose proof (proj1 (M x) I). intuition subst; auto.
  - rewrite (first_same_out _ _ I). rewrite Nat.ltb_irrefl.
    assert (Ns : ~ In x seen) by (intros Q; apply I, M; auto).
    destruct (@modify_Ok _ (map (times seen) diff ++ [0]) (Z.of_nat (length diff)) (fun n => n + 1)) as [a [Na Ea]]; [rewrite app_length, map_length; simpl; lia|].
    rewrite Nat2Z.id in *. rewrite nth_error_app2 in Na by (rewrite map_length; lia). rewrite map_length, Nat.sub_diag in Na. injection Na as <-.
    rewrite Ea. cbn [bind]. eexists. split; [reflexivity|].
    assert (ND2 : NoDup (diff ++ [x])) by (apply NoDup_app_one; auto).
    split; [exact ND2|]. split; [cbn [fst]; destruct diff; [discriminate|exact Z0]|]. split.
    + cbn [fst snd]. replace (map (times seen) diff ++ [0]) with (map (times seen) (diff ++ [x])) by (rewrite map_app; simpl; rewrite (times_none _ _ Ns); reflexivity).
      replace (0 + 1) with (times seen x + 1) by (rewrite (times_none _ _ Ns); reflexivity). apply bump; auto.
      rewrite nth_error_app2 by lia. rewrite Nat.sub_diag. reflexivity.
    + cbn [fst]. intros y. rewrite !in_app_iff, M. simpl. tauto.
Qed.
Lemma count_all l : forall seen s, tally seen s -> exists s', for_each l count_marker s = Ok s' /\ tally (seen ++ l) s'.
Proof.
  induction l as [|x l IH]; intros seen s H.
  - exists s. rewrite app_nil_r. split; [reflexivity|auto].
  - destruct (count_marker_tally x H) as [s1 [E1 T1]]. destruct (IH _ _ T1) as [s2 [E2 T2]]. exists s2. cbn [for_each]. rewrite E1. cbn [bind].
    split; [exact E2|]. rewrite <- app_assoc in T2. exact T2.
Qed.
Lemma for_each_read A S (l : list A) (f : A -> S -> outcome S) n : (n <= length l)%nat ->
  forall s, for_each (upto n 0) (fun i s => do x <- at_ l i ; f x s) s = for_each (firstn n l) f s.
Proof.
  assert (G : forall n k s, (k + n <= length l)%nat -> for_each (upto n (Z.of_nat k)) (fun i s => do x <- at_ l i ; f x s) s = for_each (firstn n (skipn k l)) f s).
  { clear n. induction n as [|n IH]; intros k s H; [reflexivity|]. cbn [upto for_each]. destruct (@at_in _ l (Z.of_nat k)) as [x [Nx Ax]]; [lia|].
    rewrite Nat2Z.id in Nx. rewrite Ax. cbn [bind]. rewrite (skipn_cons _ _ Nx). cbn [firstn for_each]. destruct (f x s); cbn [bind]; auto.
    replace (Z.of_nat k + 1) with (Z.of_nat (1 + k)) by lia. rewrite IH by lia. reflexivity. }
  intros H s. apply (G n 0%nat). lia.
Qed.
Lemma times_marks REAL (t : tetout REAL) d : (numberoftrifaces t <= length (trifacemarkerlist t))%nat -> times (marks t) d = Z.of_nat (length (faces_with t d)).
Proof.
  intros H. unfold times, faces_with, marks. rewrite map_length. f_equal. set (l := trifacemarkerlist t) in *. clearbody l.
  assert (G : forall n k, (k + n <= length l)%nat -> length (filter (Z.eqb d) (firstn n (skipn k l))) = length (filter (fun i => nth i l 0 =? d) (seq k n))).
  { induction n as [|n IH]; intros k Hk; [reflexivity|]. destruct (nth_error l k) as [x|] eqn:E; [|apply nth_error_None in E; lia].
    rewrite (skipn_cons _ _ E). cbn [firstn filter seq]. rewrite (nth_error_nth _ _ _ E), (Z.eqb_sym d x). destruct (x =? d); cbn [length]; rewrite (IH (S k)) by lia; reflexivity. }
  exact (G (numberoftrifaces t) 0%nat H).
Qed.
Lemma boundary_ok REAL (t : tetout REAL) diff num k d n : su2_legal t -> nth_error diff k = Some d -> nth_error num k = Some n ->
  boundary t diff num (Z.of_nat k) = Ok (Tag d :: Elems n :: map Tri (faces_with t d)).
Proof.
  intros [F [_ [_ [_ [H3 Hm]]]]] Hd Hn. unfold boundary.
  assert (A1 : at_ diff (Z.of_nat k) = Ok d) by (apply at_Ok; rewrite Nat2Z.id; split; [lia|auto]).
  assert (A2 : at_ num (Z.of_nat k) = Ok n) by (apply at_Ok; rewrite Nat2Z.id; split; [lia|auto]).
  rewrite A1. cbn [bind]. rewrite A2. cbn [bind].
  set (g := fun i => if nth (Z.to_nat i) (trifacemarkerlist t) 0 =? d then [@Tri REAL (from_0 (firstnumber t) (trifacelist t) (Z.to_nat (i * 3)) 3)] else []).
  rewrite (@omap_all _ _ _ g).
  - cbn [bind]. do 3 f_equal. unfold faces_with. rewrite map_map.
    assert (G : forall n k, concat (map g (upto n (Z.of_nat k))) =
      map (fun x => Tri (from_0 (firstnumber t) (trifacelist t) (x * 3) 3)) (filter (fun i => nth i (trifacemarkerlist t) 0 =? d) (seq k n))).
    { clear. induction n as [|n IH]; intros k; [reflexivity|]. cbn [upto map concat seq filter].
      replace (Z.of_nat k + 1) with (Z.of_nat (S k)) by lia. rewrite IH. unfold g at 1. rewrite Nat2Z.id.
      destruct (nth k (trifacemarkerlist t) 0 =? d); [|reflexivity]. cbn [map app]. do 3 f_equal. lia. }
    exact (G (numberoftrifaces t) 0%nat).
  - intros i Hi. apply upto_In in Hi. destruct (@at_in _ (trifacemarkerlist t) i) as [x [Nx Ax]]; [lia|]. rewrite Ax. cbn [bind]. unfold g.
    rewrite (nth_error_nth _ _ _ Nx). destruct (x =? d); [|reflexivity]. rewrite points_of_ok by (auto; lia). reflexivity.
Qed.
Lemma su2_ok REAL (t : tetout REAL) : su2_legal t ->
  exists cs ds, su2 t = Ok ([Ndime 3; Npoin (numberofpoints t)] ++ map Point cs ++ [Nelem (numberoftetrahedra t)]
      ++ map Tetra (map (fun i => from_0 (firstnumber t) (tetrahedronlist t) (i * Z.to_nat (numberofcorners t)) 4) (seq 0 (numberoftetrahedra t)))
      ++ [Nmark (Z.of_nat (length ds))]
      ++ flat_map (fun d => Tag d :: Elems (Z.of_nat (length (faces_with t d))) :: map Tri (faces_with t d)) ds) /\
    coords_of t = Ok cs /\ NoDup ds /\ forall d, In d ds <-> d <> 0 /\ In d (marks t).
Proof.
  intros Leg. pose proof Leg as [F [Hp [H4 [Ht [H3 Hm]]]]]. unfold su2.
  destruct (@coords_ok' REAL t Hp) as [cs [Ec _]]. rewrite Ec. cbn [bind].
  rewrite (@omap_all _ _ _ (fun i => from_0 (firstnumber t) (tetrahedronlist t) (Z.to_nat i * Z.to_nat (numberofcorners t)) 4)).
  2:{ intros i Hi. apply upto_In in Hi. rewrite points_of_ok by (auto; nia). do 2 f_equal. rewrite Z2Nat.inj_mul by lia. reflexivity. }
  cbn [bind]. rewrite for_each_read by auto.
  destruct (@count_all (marks t) [] ([0], [0])) as [[diff num] [E [ND [Z0 [En M]]]]].
  { split; [repeat constructor; auto|]. split; [reflexivity|]. split; [reflexivity|]. simpl. intuition auto. }
  fold (marks t). rewrite E. cbn [bind fst snd] in *. simpl app in En, M. subst num.
  destruct diff as [|z ds]; [discriminate|]. injection Z0 as ->.
  assert (Eb : omap_list (boundary t (0 :: ds) (map (times (marks t)) (0 :: ds))) (upto (length (0 :: ds) - 1) 1) =
    Ok (map (fun d => Tag d :: Elems (Z.of_nat (length (faces_with t d))) :: map Tri (faces_with t d)) ds)).
  { replace (length (0%Z :: ds) - 1)%nat with (length ds) by (simpl; lia).
    assert (G : forall pre l, ds = pre ++ l -> omap_list (boundary t (0 :: ds) (map (times (marks t)) (0 :: ds))) (upto (length l) (Z.of_nat (S (length pre)))) =
      Ok (map (fun d => Tag d :: Elems (Z.of_nat (length (faces_with t d))) :: map Tri (faces_with t d)) l)).
    { intros pre l. revert pre. induction l as [|d l IH]; intros pre Q; [reflexivity|]. cbn [length upto omap_list].
      assert (Nd : nth_error (0 :: ds) (S (length pre)) = Some d) by (simpl; rewrite Q, nth_error_app2, Nat.sub_diag by lia; reflexivity).
      rewrite (@boundary_ok _ t (0 :: ds) (map (times (marks t)) (0 :: ds)) (S (length pre)) d (times (marks t) d) Leg Nd) by (rewrite nth_error_map, Nd; reflexivity).
      cbn [bind]. replace (Z.of_nat (S (length pre)) + 1) with (Z.of_nat (S (length (pre ++ [d])))) by (rewrite app_length; simpl; lia).
      rewrite IH by (rewrite <- app_assoc; exact Q). cbn [bind map]. rewrite times_marks by auto. reflexivity. }
    exact (G [] ds eq_refl). }
  rewrite Eb. cbn [bind]. exists cs, ds. split; [|split; [reflexivity|split]].
  - rewrite <- flat_map_concat_map. replace (Z.of_nat (length (0%Z :: ds)) - 1) with (Z.of_nat (length ds)) by (cbn [length]; lia).
    replace (map (fun i => from_0 (firstnumber t) (tetrahedronlist t) (Z.to_nat i * Z.to_nat (numberofcorners t)) 4) (upto (numberoftetrahedra t) 0))
      with (map (fun i => from_0 (firstnumber t) (tetrahedronlist t) (i * Z.to_nat (numberofcorners t)) 4) (seq 0 (numberoftetrahedra t))); [reflexivity|].
    assert (G : forall n k, map (fun i => Z.to_nat i) (upto n (Z.of_nat k)) = seq k n).
    { clear. induction n as [|n IH]; intros k; [reflexivity|]. cbn [upto map seq]. rewrite Nat2Z.id. f_equal. replace (Z.of_nat k + 1) with (Z.of_nat (S k)) by lia. apply IH. }
    rewrite <- (G _ 0%nat), map_map. reflexivity.
  - inversion ND; auto.
  - inversion ND as [|? ? N1 N2]. subst. intros d. specialize (M d). simpl in M. split.
    + intros Hd. split; [intros ->; contradiction|]. destruct (proj1 M (or_intror Hd)) as [->|]; [contradiction|auto].
    + intros [Q1 Q2]. destruct (proj2 M (or_intror Q2)) as [Q|Q]; [congruence|auto].
Qed.
