(** Lemmas about cells of parents and constraint numbering. *)
From Coq Require Import ZArith List Bool Lia QArith Qabs.
From Verif Require Import Base Mesh MeshProofs FloodProofs Edit Family SpecFamily.
Import ListNotations.
Local Open Scope Z_scope.
Set Implicit Arguments.

Lemma at_nat A (l : list A) (k : nat) a : nth_error l k = Some a -> at_ l (Z.of_nat k) = Ok a.
Proof. intro H. apply at_Ok. rewrite Nat2Z.id. split; [lia | exact H]. Qed.

Lemma nth_ex A (l : list A) k : (k < length l)%nat -> exists a, nth_error l k = Some a.
Proof. intro H. destruct (nth_error l k) eqn:E; [eauto|]. apply nth_error_None in E. lia. Qed.

Section Cells.
Variables (m : mesh) (t : tree).
Hypothesis ready : family_ready m t.

Lemma lies_in_unique j v c c' : lies_in m t j v c -> lies_in m t j v c' -> c = c'.
Proof.
  destruct ready as (U & _). intros (k & vo & row & K & V & R & C) (k' & vo' & row' & K' & V' & R' & C').
  rewrite R in R'. injection R' as <-.
  assert (k = k') by (eapply (@pos_unique _ vo_index); eauto; congruence). subst. congruence.
Qed.

Lemma not_inside v : find vo_index (volus m) v = -1 -> ~ inside m v.
Proof.
  intros F I. apply in_map_iff in I as (x & <- & I).
  destruct (find_spec vo_index (volus m) (vo_index x)) as [[_ N]|(j & a & E & _)]; [|lia].
  apply N. eauto.
Qed.

Lemma find_cases v :
  (find vo_index (volus m) v = -1 /\ ~ inside m v) \/
  (exists k, find vo_index (volus m) v = Z.of_nat k /\ inside m v /\
     forall j, (Z.of_nat j < nParents t) ->
       exists c, conn_at t (Z.of_nat j) (Z.of_nat k) = Ok c /\ lies_in m t j v c).
Proof.
  destruct ready as (_ & _ & _ & P & W).
  destruct (find_spec vo_index (volus m) v) as [[F N]|(k & vo & F & K & V)].
  - left. split; [exact F | now apply not_inside].
  - right. exists k. split; [exact F|]. split.
    { apply in_map_iff. exists vo. split; [exact V | eapply nth_error_In; eauto]. }
    intros j J. destruct (@nth_ex _ (parentconn t) j) as (row & R); [lia|].
    assert (L := W row (nth_error_In _ _ R)).
    destruct (@nth_ex _ row k) as (c & C). { rewrite L. apply nth_error_Some. congruence. }
    exists c. split.
    + unfold conn_at. rewrite (at_nat _ _ R). cbn [bind]. now apply at_nat.
    + exists k, vo, row. auto.
Qed.

Lemma loop_spec v0 v1 : forall n (jj : nat), Z.of_nat jj + Z.of_nat n <= nParents t ->
  exists r, in_parent_loop t (find vo_index (volus m) v0) (find vo_index (volus m) v1) n
              (Z.of_nat jj) = Ok r /\
    ((r = -1 /\ forall i, (jj <= i < jj + n)%nat -> ~ apart m t i v0 v1) \/
     (exists i, r = Z.of_nat i /\ (jj <= i < jj + n)%nat /\ apart m t i v0 v1 /\
                forall i', (jj <= i' < i)%nat -> ~ apart m t i' v0 v1)).
Proof.
  induction n as [|n IH]; intros jj B.
  - exists (-1). split; [reflexivity|]. left. split; [reflexivity|]. intros i I. lia.
  - cbn [in_parent_loop].
    assert (Here : exists b, (if xorb (negb (find vo_index (volus m) v0 =? -1))
                                      (negb (find vo_index (volus m) v1 =? -1)) then Ok true
       else if negb (find vo_index (volus m) v0 =? -1)
            then do c1 <- conn_at t (Z.of_nat jj) (find vo_index (volus m) v0) ;
                 do c2 <- conn_at t (Z.of_nat jj) (find vo_index (volus m) v1) ;
                 Ok (negb (c1 =? c2)) else Ok false) = Ok b /\
       (b = true <-> apart m t jj v0 v1)).
    { destruct (find_cases v0) as [(F0 & N0)|(k0 & F0 & I0 & C0)];
        destruct (find_cases v1) as [(F1 & N1)|(k1 & F1 & I1 & C1)]; rewrite F0, F1.
      - exists false. split; [reflexivity|]. split; [discriminate|].
        intros [(X & _)|[(_ & X)|(c0 & c1 & (k & vo & row & K & V & _) & _)]]; try tauto.
        exfalso. apply N0. apply in_map_iff. exists vo. split; [exact V | eapply nth_error_In; eauto].
      - exists true. destruct (Z.eqb_spec (Z.of_nat k1) (-1)); [lia|].
        split; [reflexivity|]. split; [|reflexivity]. intros _. right. left. auto.
      - exists true. destruct (Z.eqb_spec (Z.of_nat k0) (-1)); [lia|].
        split; [reflexivity|]. split; [|reflexivity]. intros _. left. auto.
      - destruct (Z.eqb_spec (Z.of_nat k0) (-1)); [lia|].
        destruct (Z.eqb_spec (Z.of_nat k1) (-1)); [lia|]. cbn [negb xorb].
        destruct (C0 jj) as (c0 & R0 & L0); [lia|]. destruct (C1 jj) as (c1 & R1 & L1); [lia|].
        rewrite R0, R1. cbn [bind]. exists (negb (c0 =? c1)). split; [reflexivity|].
        split.
        + intro X. right. right. exists c0, c1. destruct (Z.eqb_spec c0 c1); [discriminate | auto].
        + intros [(_ & X)|[(X & _)|(d0 & d1 & M0 & M1 & D)]]; try tauto.
          rewrite (lies_in_unique L0 M0), (lies_in_unique L1 M1).
          destruct (Z.eqb_spec d0 d1); [congruence | reflexivity]. }
    destruct Here as (b & E & Hs). rewrite E. cbn [bind]. destruct b.
    + exists (Z.of_nat jj). split; [reflexivity|]. right. exists jj. split; [reflexivity|].
      split; [lia|]. split; [now apply Hs|]. intros i' I. lia.
    + replace (Z.of_nat jj + 1) with (Z.of_nat (S jj)) by lia.
      destruct (IH (S jj)) as (r & R & K); [lia|]. exists r. split; [exact R|].
      assert (N : ~ apart m t jj v0 v1) by (intro X; apply Hs in X; discriminate).
      destruct K as [(-> & K)|(i & -> & I & A & K)].
      * left. split; [reflexivity|]. intros i I. destruct (Nat.eq_dec i jj) as [->|]; [exact N|].
        apply K. lia.
      * right. exists i. split; [reflexivity|]. split; [lia|]. split; [exact A|].
        intros i' I'. destruct (Nat.eq_dec i' jj) as [->|]; [exact N|]. apply K. lia.
Qed.

Lemma surf_in_parent_ok s v0 v1 : In s (surfs m) -> sides s v0 v1 ->
  exists r, surf_in_parent m t (su_index s) = Ok r /\
    ((r = -1 /\ forall i, Z.of_nat i < nParents t -> ~ apart m t i v0 v1) \/
     (exists i, r = Z.of_nat i /\ Z.of_nat i < nParents t /\ apart m t i v0 v1 /\
                forall i', (i' < i)%nat -> ~ apart m t i' v0 v1)).
Proof.
  destruct ready as (_ & U & _ & P & _). intros I (rest & S).
  apply In_nth_error in I as (q & Q).
  unfold surf_in_parent. rewrite (@find_pos _ su_index (surfs m) q s U Q).
  destruct (Z.leb_spec 0 (Z.of_nat q)); [|lia].
  rewrite (at_nat _ _ Q). cbn [bind]. rewrite S.
  change (at_ (v0 :: v1 :: rest) 0) with (Ok v0). change (at_ (v0 :: v1 :: rest) 1) with (Ok v1).
  cbn [bind].
  destruct (@loop_spec v0 v1 (Z.to_nat (nParents t)) 0) as (r & R & K); [lia|].
  exists r. split; [exact R|]. destruct K as [(-> & K)|(i & -> & J & A & K)].
  - left. split; [reflexivity|]. intros i J. apply K. lia.
  - right. exists i. split; [reflexivity|]. split; [lia|]. split; [exact A|]. intros i' J'. apply K. lia.
Qed.

Variable h : cells.
Hypothesis pready : parents_ready t h.

Lemma parent_target_unique j v q q' :
  parent_target m t h j v q -> parent_target m t h j v q' -> q = q'.
Proof.
  intros (c & p & x & L & P & I & X & <-) (c' & p' & x' & L' & P' & I' & X' & <-).
  rewrite (lies_in_unique L' L) in X'. rewrite P in P'. injection P' as <-.
  destruct pready as (_ & W). destruct (W j p P) as (U & _).
  apply In_nth_error in I as (k & K). apply In_nth_error in I' as (k' & K').
  assert (k = k') by (eapply (@pos_unique _ ce_index); eauto; congruence). congruence.
Qed.

Lemma parent_values_ok v : inside m v -> forall n (jj : nat),
  Z.of_nat jj + Z.of_nat n <= nParents t ->
  exists vals, parent_values h t Target (find vo_index (volus m) v) n (Z.of_nat jj) = Ok vals /\
    length vals = n /\
    forall i q, nth_error vals i = Some q -> parent_target m t h (jj + i) v q.
Proof.
  intro I. destruct (find_cases v) as [(_ & N)|(k & F & _ & C)]; [tauto|].
  destruct pready as (PB & W). rewrite F.
  induction n as [|n IH]; intros jj B; cbn [parent_values].
  - exists []. repeat split. intros [|i] q H; discriminate.
  - destruct (@nth_ex _ (parentmesh t) jj) as (p & P); [lia|]. rewrite (at_nat _ _ P). cbn [bind].
    destruct (C jj) as (c & R & L); [lia|]. rewrite R. cbn [bind].
    destruct (W jj p P) as (U & WR).
    assert (J : exists x, In x (h p) /\ ce_index x = c).
    { destruct L as (k' & vo & row & _ & _ & R1 & C1).
      specialize (WR row R1 c (nth_error_In _ _ C1)). apply in_map_iff in WR as (x & X & J).
      eauto. }
    apply find_at in J as (x & J1 & J2 & J3). unfold isearch. rewrite J1. cbn [bind].
    replace (Z.of_nat jj + 1) with (Z.of_nat (S jj)) by lia.
    destruct (IH (S jj)) as (vals & V & VL & VN); [lia|]. rewrite V. cbn [bind].
    exists (get_field Target x :: vals). split; [reflexivity|]. split; [cbn; lia|].
    intros [|i] q H; cbn in H.
    + injection H as <-. rewrite Nat.add_0_r. exists c, p, x. auto.
    + replace (jj + S i)%nat with (S jj + i)%nat by lia. now apply VN.
Qed.
End Cells.

Lemma near_bound outer q : near (bound_of outer) q = true <-> at_bound outer q.
Proof.
  unfold near, at_bound, bound_of. destruct (Qlt_le_dec _ _) as [H|H].
  - split; auto.
  - split; [discriminate|]. intro H'. exfalso. now apply Qlt_not_le in H'.
Qed.

Lemma first_bound_spec b : forall l0 l1, length l0 = length l1 ->
  match first_bound b l0 l1 with
  | Some (x0, x1) => exists i, nth_error l0 i = Some x0 /\ nth_error l1 i = Some x1 /\
                               xorb (near b x0) (near b x1) = true
  | None => forall i x0 x1, nth_error l0 i = Some x0 -> nth_error l1 i = Some x1 ->
                            xorb (near b x0) (near b x1) = false
  end.
Proof.
  induction l0 as [|x0 r0 IH]; intros [|x1 r1] L; try discriminate; cbn [first_bound].
  - intros [|i] x0 x1 H; discriminate.
  - destruct (xorb (near b x0) (near b x1)) eqn:X.
    + exists 0%nat. auto.
    + specialize (IH r1 ltac:(cbn in L; lia)). destruct (first_bound b r0 r1) as [[y0 y1]|].
      * destruct IH as (i & H). exists (S i). exact H.
      * intros [|i] y0 y1 H0 H1; cbn in H0, H1; [congruence | eauto].
Qed.

(** ** Constraint numbering *)

Fixpoint cases_from (h : cells) (ps : list Z) (ii : Z) : list (Z * Z) :=
  match ps with
  | [] => []
  | p :: r => map (fun c => (ii, ce_index c)) (h p) ++ cases_from h r (ii + 1)
  end.

Lemma cases_from_app h ps p ii :
  cases_from h (ps ++ [p]) ii =
  cases_from h ps ii ++ map (fun c => (ii + Z.of_nat (length ps), ce_index c)) (h p).
Proof.
  revert ii. induction ps as [|q ps IH]; intro ii; cbn [app cases_from length].
  - rewrite app_nil_r. replace (ii + Z.of_nat 0) with ii by lia. reflexivity.
  - rewrite IH, <- app_assoc. do 2 f_equal. apply map_ext. intro c. f_equal. lia.
Qed.

Lemma cases_from_nth h ps : forall ii k a b,
  nth_error (cases_from h ps ii) k = Some (a, b) ->
  exists j p x, a = ii + Z.of_nat j /\ nth_error ps j = Some p /\ In x (h p) /\ ce_index x = b /\
                nth_error (flat_map h ps) k = Some x.
Proof.
  induction ps as [|p ps IH]; intros ii k a b H; cbn [cases_from flat_map] in *.
  - destruct k; discriminate.
  - destruct (Nat.lt_ge_cases k (length (h p))) as [L|L].
    + rewrite nth_error_app1 in H by (rewrite map_length; exact L).
      rewrite nth_error_map in H. destruct (nth_error (h p) k) as [x|] eqn:X; [|discriminate].
      cbn in H. injection H as <- <-. exists 0%nat, p, x. rewrite nth_error_app1 by exact L.
      repeat split; auto; [lia | eapply nth_error_In; eauto].
    + rewrite nth_error_app2 in H by (rewrite map_length; exact L). rewrite map_length in H.
      apply IH in H as (j & q & x & -> & J & I & X & E). exists (S j), q, x.
      rewrite nth_error_app2 by exact L. repeat split; auto. lia.
Qed.

Lemma cases_from_in h ps : forall ii j p x, nth_error ps j = Some p -> In x (h p) ->
  In (ii + Z.of_nat j, ce_index x) (cases_from h ps ii).
Proof.
  induction ps as [|q ps IH]; intros ii j p x J I; [destruct j; discriminate|].
  cbn [cases_from]. apply in_app_iff. destruct j as [|j]; cbn in J.
  - injection J as <-. left. apply in_map_iff. exists x. split; [f_equal; lia | exact I].
  - right. replace (ii + Z.of_nat (S j)) with (ii + 1 + Z.of_nat j) by lia. eapply IH; eauto.
Qed.

Lemma cases_from_low h ps ii a b : In (a, b) (cases_from h ps ii) -> ii <= a.
Proof.
  intro I. apply In_nth_error in I as (k & K). apply cases_from_nth in K as (j & p & x & -> & _). lia.
Qed.

Lemma NoDup_app_ A (l l' : list A) :
  NoDup l -> NoDup l' -> (forall x, In x l -> In x l' -> False) -> NoDup (l ++ l').
Proof.
  induction l as [|a l IH]; intros N N' D; [exact N'|]. inversion N as [|? ? Na Nl]; subst.
  cbn [app]. constructor.
  - intro I. apply in_app_iff in I as [I|I]; [now apply Na | apply (D a); [now left | exact I]].
  - apply IH; auto. intros x I I'. apply (D x); [now right | exact I'].
Qed.

Lemma cases_from_nodup h ps :
  (forall p, In p ps -> NoDup (map ce_index (h p))) -> forall ii, NoDup (cases_from h ps ii).
Proof.
  induction ps as [|p ps IH]; intros U ii; cbn [cases_from]; [constructor|].
  apply NoDup_app_.
  - rewrite <- (map_map ce_index (fun b => (ii, b))). specialize (U p (or_introl eq_refl)).
    revert U. generalize (map ce_index (h p)). intros l N. induction N as [|x l Nx Nl IHl]; cbn.
    + constructor.
    + constructor; [|exact IHl]. intro I. apply in_map_iff in I as (y & E & I). injection E as ->. easy.
  - apply IH. intros q I. apply U. now right.
  - intros [a b] I I'. apply in_map_iff in I as (x & E & _). injection E as <- _.
    apply cases_from_low in I'. lia.
Qed.

Lemma cases_from_length h ps ii : length (cases_from h ps ii) = length (flat_map h ps).
Proof.
  revert ii. induction ps as [|p ps IH]; intro ii; cbn [cases_from flat_map]; [reflexivity|].
  rewrite !app_length, map_length, IH. reflexivity.
Qed.

Lemma count_length h t : count_volu_parent h t = Z.of_nat (length (flat_map h (parentmesh t))).
Proof.
  unfold count_volu_parent. induction (parentmesh t) as [|p ps IH]; cbn [fold_right flat_map]; [reflexivity|].
  rewrite IH, app_length. lia.
Qed.

Lemma row_positions_ok cs row nPar : forall elems (jj : nat),
  (jj + length elems <= length row)%nat ->
  exists pos, row_positions cs row nPar elems (Z.of_nat jj) = Ok pos /\
    length pos = length elems /\
    forall e c, (e < length elems)%nat -> nth_error row (jj + e) = Some c ->
                nth_error pos e = Some (find ce_index cs c + nPar).
Proof.
  induction elems as [|x r IH]; intros jj B; cbn [row_positions length] in *.
  - exists []. repeat split. intros; lia.
  - destruct (@nth_ex _ row jj) as (c & C); [lia|]. rewrite (at_nat _ _ C). cbn [bind].
    replace (Z.of_nat jj + 1) with (Z.of_nat (S jj)) by lia.
    destruct (IH (S jj)) as (pos & P & PL & PN); [lia|]. rewrite P. cbn [bind].
    eexists. split; [reflexivity|]. split; [cbn; lia|].
    intros [|e] d E D.
    + rewrite Nat.add_0_r in D. cbn. congruence.
    + cbn [nth_error]. apply PN; [lia|]. replace (S jj + e)%nat with (jj + S e)%nat by lia. exact D.
Qed.

Section Numbering.
Variables (t : tree) (h : cells).
Hypothesis ready : map_ready t h.
Local Notation nE := (length (elemind t)).

(** State of the vectors once the first [length pre] parents are done. *)
Definition done (pre : list Z) (vals : list Q) (a : pmap) : Prop :=
  parentcases a = cases_from h pre 0 /\
  voluVals a = vals ++ map (fun c => (ce_volume c * ce_target c)%Q) (flat_map h pre) /\
  length (currind a) = (length pre * nE)%nat /\ length (parentpos a) = (length pre * nE)%nat /\
  (forall j e row c, (j < length pre)%nat -> (e < nE)%nat -> nth_error (parentconn t) j = Some row ->
     nth_error row e = Some c ->
     nth_error (currind a) (j * nE + e) = nth_error (elemind t) e /\
     exists pos, nth_error (parentpos a) (j * nE + e) = Some (Z.of_nat pos) /\
                 nth_error (cases_from h pre 0) pos = Some (Z.of_nat j, c)).

Lemma map_loop_ok vals : forall rest pre a, parentmesh t = pre ++ rest -> done pre vals a ->
  exists pm, parent_map_loop h t (length rest) (Z.of_nat (length pre))
               (Z.of_nat (length (flat_map h pre))) a = Ok pm /\ done (parentmesh t) vals pm.
Proof.
  destruct ready as (HN & HL & HW).
  induction rest as [|p rest IH]; intros pre a E D.
  - rewrite app_nil_r in E. rewrite E. exists a. split; [reflexivity | exact D].
  - cbn [length parent_map_loop].
    assert (P : nth_error (parentmesh t) (length pre) = Some p).
    { rewrite E, nth_error_app2, Nat.sub_diag by lia. reflexivity. }
    rewrite (at_nat _ _ P). cbn [bind].
    destruct (HW _ _ P) as (U & W).
    destruct (@nth_ex _ (parentconn t) (length pre)) as (row & R).
    { rewrite HL. apply nth_error_Some. congruence. }
    destruct (W row R) as (WL & WC).
    assert (RR : exists row', (match elemind t with [] => Ok [] | _ => at_ (parentconn t) (Z.of_nat (length pre)) end)
                   = Ok row' /\ (row' = row \/ elemind t = [])).
    { destruct (elemind t) as [|x y] eqn:EE in |- *; [exists []; auto|]. exists row. split; [|now left].
      now apply at_nat. }
    destruct RR as (row' & RR & Row). rewrite RR. cbn [bind].
    destruct (@row_positions_ok (h p) row' (Z.of_nat (length (flat_map h pre))) (elemind t) 0)
      as (pos & PR & PL & PN).
    { destruct Row as [->| ->]; cbn [length Nat.add]; lia. }
    change (Z.of_nat 0) with 0 in PR. rewrite PR. cbn [bind].
    assert (FL : Z.of_nat (length (flat_map h pre)) + Z.of_nat (length (h p)) =
                 Z.of_nat (length (flat_map h (pre ++ [p])))).
    { rewrite flat_map_app, app_length. cbn [flat_map]. rewrite app_nil_r. lia. }
    rewrite FL. replace (Z.of_nat (length pre) + 1) with (Z.of_nat (length (pre ++ [p])))
      by (rewrite app_length; cbn; lia).
    apply IH. { rewrite E, <- app_assoc. reflexivity. }
    destruct D as (D1 & D2 & D3 & D4 & D5).
    unfold done. cbn [currind parentpos parentcases voluVals].
    assert (C1 : parentcases a ++ map (fun c => (Z.of_nat (length pre), ce_index c)) (h p) =
                 cases_from h (pre ++ [p]) 0).
    { rewrite cases_from_app, D1. reflexivity. }
    assert (LP : length (pre ++ [p]) = S (length pre)) by (rewrite app_length; cbn; lia).
    split; [exact C1|].
    split. { rewrite D2, <- app_assoc, <- map_app, flat_map_app. cbn [flat_map]. rewrite app_nil_r. reflexivity. }
    split. { rewrite app_length, D3, LP. lia. }
    split. { rewrite app_length, D4, PL, LP. lia. }
    rewrite LP. intros j e row0 c J Ee R0 Ce.
    destruct (Nat.eq_dec j (length pre)) as [->|NJ].
    + rewrite R in R0. injection R0 as <-.
      rewrite nth_error_app2 by (rewrite D3; lia). rewrite D3.
      rewrite nth_error_app2 by (rewrite D4; lia). rewrite D4.
      replace (length pre * nE + e - length pre * nE)%nat with e by lia.
      split; [reflexivity|].
      destruct Row as [->|Row]; [|rewrite Row in Ee; cbn in Ee; lia].
      rewrite (PN e c Ee Ce).
      specialize (WC c (nth_error_In _ _ Ce)). apply in_map_iff in WC as (x & X & I).
      apply In_nth_error in I as (k & K).
      rewrite <- X. rewrite (@find_pos _ ce_index (h p) k x U K).
      exists (length (flat_map h pre) + k)%nat. split; [f_equal; lia|].
      rewrite cases_from_app. rewrite <- (cases_from_length h pre 0).
      rewrite nth_error_app2 by lia.
      replace (length (cases_from h pre 0) + k - length (cases_from h pre 0))%nat with k by lia.
      rewrite nth_error_map, K. reflexivity.
    + destruct (D5 j e row0 c ltac:(lia) Ee R0 Ce) as (G1 & q & G2 & G3).
      assert (B : (j * nE + e < length pre * nE)%nat) by nia.
      rewrite !nth_error_app1 by lia. split; [exact G1|]. exists q. split; [exact G2|].
      rewrite cases_from_app, nth_error_app1; [exact G3|]. apply nth_error_Some. congruence.
Qed.

Lemma return_map_ok vals :
  exists pm, return_parent_map h t vals = Ok pm /\ done (parentmesh t) vals pm.
Proof.
  unfold return_parent_map. destruct ready as (HN & _). rewrite HN, Nat2Z.id.
  apply (@map_loop_ok vals (parentmesh t) [] (mkPmap [] [] [] vals)); [reflexivity|].
  unfold done. cbn. rewrite app_nil_r. repeat split; auto; intros; lia.
Qed.
End Numbering.

(** ** Writing values *)

Lemma set_field_same k v x : same_but k v x (set_field k v x).
Proof. destruct k, x; repeat split; intros [| | |] N; try congruence; reflexivity. Qed.

Lemma write_cell_ok l i k v : NoDup (map ce_index l) -> In i (map ce_index l) ->
  exists l', write_cell l i k v = Ok l' /\ map ce_index l' = map ce_index l /\
    forall q x, nth_error l q = Some x ->
      nth_error l' q = Some (if ce_index x =? i then set_field k v x else x).
Proof.
  intros U I. unfold write_cell. rewrite (@modify_find _ ce_index l i _ U I).
  eexists. split; [reflexivity|]. unfold on. split.
  - rewrite map_map. apply map_ext. intro x. destruct (ce_index x =? i); [|reflexivity]. now destruct k.
  - intros q x Q. rewrite nth_error_map, Q. reflexivity.
Qed.

Definition valid_cases (t : tree) (h : cells) (cs : list (Z * Z)) : Prop :=
  forall a b, In (a, b) cs -> 0 <= a /\
    exists p, nth_error (parentmesh t) (Z.to_nat a) = Some p /\ In b (map ce_index (h p)).

Lemma map_to_parent_ok t k fillIn : NoDup (parentmesh t) ->
  forall cs (ii : nat) h, NoDup cs -> valid_cases t h cs ->
  (forall p, In p (parentmesh t) -> NoDup (map ce_index (h p))) ->
  (ii + length cs <= length fillIn)%nat ->
  exists h', map_to_parent t k fillIn cs (Z.of_nat ii) h = Ok h' /\
    forall q, length (h' q) = length (h q) /\
      forall pos x, nth_error (h q) pos = Some x -> exists y, nth_error (h' q) pos = Some y /\
        (forall n a, nth_error cs n = Some (a, ce_index x) ->
                     nth_error (parentmesh t) (Z.to_nat a) = Some q ->
                     exists v, nth_error fillIn (ii + n) = Some v /\ same_but k v x y) /\
        ((forall n a, nth_error cs n = Some (a, ce_index x) ->
                      nth_error (parentmesh t) (Z.to_nat a) = Some q -> False) -> y = x).
Proof.
  intro UP. induction cs as [|[a b] cs IH]; intros ii h N V U B.
  - exists h. split; [reflexivity|]. intro q. split; [reflexivity|]. intros pos x X. exists x.
    split; [exact X|]. split; [intros [|n] a H; discriminate | reflexivity].
  - cbn [map_to_parent]. inversion N as [|? ? Nh Nt]; subst.
    destruct (V a b (or_introl eq_refl)) as (A0 & p & P & Ib).
    assert (Pa : at_ (parentmesh t) a = Ok p) by (apply at_Ok; auto).
    rewrite Pa. cbn [bind length] in *.
    destruct (@nth_ex _ fillIn ii) as (v & Fv); [lia|]. rewrite (at_nat _ _ Fv). cbn [bind].
    assert (Up := U p (nth_error_In _ _ P)).
    destruct (@write_cell_ok (h p) b k v Up Ib) as (l & W & WI & WN). rewrite W. cbn [bind].
    set (h1 := fun q => if q =? p then l else h q).
    assert (I1 : forall q, map ce_index (h1 q) = map ce_index (h q)).
    { intro q. unfold h1. destruct (Z.eqb_spec q p); [subst; exact WI | reflexivity]. }
    replace (Z.of_nat ii + 1) with (Z.of_nat (S ii)) by lia.
    destruct (IH (S ii) h1 Nt) as (h' & R & K).
    { intros a' b' I. destruct (V a' b' (or_intror I)) as (A' & p' & P' & I').
      split; [exact A'|]. exists p'. rewrite I1. auto. }
    { intros q Q. rewrite I1. auto. }
    { lia. }
    exists h'. split; [exact R|]. intro q. destruct (K q) as (KL & KN). split.
    { rewrite KL. rewrite <- (map_length ce_index (h1 q)), I1. apply map_length. }
    intros pos x X.
    assert (X1 : nth_error (h1 q) pos = Some (if (q =? p) && (ce_index x =? b) then set_field k v x else x)).
    { unfold h1. destruct (Z.eqb_spec q p); [subst; cbn [andb]; now apply WN | exact X]. }
    destruct (KN _ _ X1) as (y & Y & Y1 & Y2).
    assert (CI : ce_index (if (q =? p) && (ce_index x =? b) then set_field k v x else x) = ce_index x).
    { destruct ((q =? p) && (ce_index x =? b)); [now destruct k | reflexivity]. }
    rewrite CI in Y1, Y2. exists y. split; [exact Y|].
    (* a later case for the same cell would repeat the first *)
    assert (Uniq : q = p -> ce_index x = b -> forall n a', nth_error cs n = Some (a', ce_index x) ->
                   nth_error (parentmesh t) (Z.to_nat a') = Some q -> False).
    { intros -> Xb n a' Hn Ha'. apply nth_error_In in Hn. rewrite Xb in Hn.
      destruct (V a' b (or_intror Hn)) as (A' & _).
      assert (Z.to_nat a' = Z.to_nat a).
      { apply (proj1 (NoDup_nth_error _) UP); [apply nth_error_Some|]; congruence. }
      assert (a' = a) by lia. subst a'. now apply Nh. }
    destruct (Z.eqb_spec q p) as [Eq|Nq]; cbn [andb] in Y1, Y2.
    + destruct (Z.eqb_spec (ce_index x) b) as [Eb|Nb].
      * rewrite (Y2 (Uniq Eq Eb)). split.
        -- intros [|n] a' Hn Ha'; cbn in Hn.
           ++ exists v. rewrite Nat.add_0_r. split; [exact Fv | apply set_field_same].
           ++ exfalso. eapply Uniq; eauto.
        -- intro Z0. exfalso. apply (Z0 0%nat a); cbn; [now rewrite Eb | now rewrite Eq].
      * split.
        -- intros [|n] a' Hn Ha'; cbn in Hn; [congruence|].
           replace (ii + S n)%nat with (S ii + n)%nat by lia. eapply Y1; eauto.
        -- intro Z0. apply Y2. intros n a' Hn Ha'. apply (Z0 (S n) a'); auto.
    + split.
      * intros [|n] a' Hn Ha'; cbn in Hn; [congruence|].
        replace (ii + S n)%nat with (S ii + n)%nat by lia. eapply Y1; eauto.
      * intro Z0. apply Y2. intros n a' Hn Ha'. apply (Z0 (S n) a'); auto.
Qed.

Lemma map_to_self_ok k fillIn : forall es (ii : nat) l, NoDup es ->
  (forall e, In e es -> In e (map ce_index l)) -> NoDup (map ce_index l) ->
  (ii + length es <= length fillIn)%nat ->
  exists l', map_to_self k fillIn es (Z.of_nat ii) l = Ok l' /\ length l' = length l /\
    forall pos x, nth_error l pos = Some x -> exists y, nth_error l' pos = Some y /\
      (forall n, nth_error es n = Some (ce_index x) ->
                 exists v, nth_error fillIn (ii + n) = Some v /\ same_but k v x y) /\
      (~ In (ce_index x) es -> y = x).
Proof.
  induction es as [|e es IH]; intros ii l N V U B.
  - exists l. split; [reflexivity|]. split; [reflexivity|]. intros pos x X. exists x.
    split; [exact X|]. split; [intros [|n] H; discriminate | reflexivity].
  - cbn [map_to_self length] in *. inversion N as [|? ? Ne Nt]; subst.
    destruct (@nth_ex _ fillIn ii) as (v & Fv); [lia|]. rewrite (at_nat _ _ Fv). cbn [bind].
    destruct (@write_cell_ok l e k v U (V e (or_introl eq_refl))) as (l1 & W & WI & WN).
    rewrite W. cbn [bind]. replace (Z.of_nat ii + 1) with (Z.of_nat (S ii)) by lia.
    destruct (IH (S ii) l1 Nt) as (l' & R & KL & KN).
    { intros e' I. rewrite WI. apply V. now right. }
    { now rewrite WI. }
    { lia. }
    exists l'. split; [exact R|]. split.
    { rewrite KL. rewrite <- (map_length ce_index l1), WI. apply map_length. }
    intros pos x X. destruct (KN _ _ (WN _ _ X)) as (y & Y & Y1 & Y2).
    assert (CI : ce_index (if ce_index x =? e then set_field k v x else x) = ce_index x).
    { destruct (ce_index x =? e); [now destruct k | reflexivity]. }
    rewrite CI in Y1, Y2. exists y. split; [exact Y|].
    destruct (Z.eqb_spec (ce_index x) e) as [E|E].
    + rewrite Y2 by (rewrite E; exact Ne). split.
      * intros [|n] Hn; cbn in Hn.
        -- exists v. rewrite Nat.add_0_r. split; [exact Fv | apply set_field_same].
        -- exfalso. apply Ne. rewrite <- E. eapply nth_error_In; eauto.
      * intro Z0. exfalso. apply Z0. now left.
    + split.
      * intros [|n] Hn; cbn in Hn; [congruence|].
        replace (ii + S n)%nat with (S ii + n)%nat by lia. now apply Y1.
      * intro Z0. apply Y2. intro I. apply Z0. now right.
Qed.
