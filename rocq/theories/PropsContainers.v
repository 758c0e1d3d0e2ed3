(** Theorems for C01-C10: containers, hashed vectors, keyed accumulation. *)
From Verif Require Import Base Containers SpecContainers ContainersProofs.
Open Scope Z_scope.

(** A history used by the examples: every kind of edit. *)
Definition demo_ops : list (op pair_class) :=
  [@OPush pair_class (4, 7); @OPush pair_class (2, 7); OPrepare; @OPush pair_class (9, 1);
   OEdit 1 (fun e => (5, snd e)); ORemove [9; 9; 33]; @OConcat pair_class [(3, 7); (11, 2)];
   OPrepare; @OPush pair_class (20, 7)].

(** *** C01 *)
(** The elements themselves: the container is a plain vector. *)
Theorem C01_contents : forall (E : elem_class) (ops : list (op E)) (garbage : Z),
  omap (@elems E) (run_on E ops (fresh E garbage)) = plain_run E ops [].
Proof. intros E ops g. exact (plain_run_ok E ops (fresh E g)). Qed.
Print Assumptions C01_contents.

(** After any history and PrepareForUse, every answer the hash table may give
    is exact, and it gives one. *)
Theorem C01_find_exact : forall (E : elem_class) (ops : list (op E)) (garbage : Z) (s : arr E),
  run_on E ops (fresh E garbage) = Ok s ->
  let c := prepare_on E s in
  elems c = map (e_prep E) (elems s) /\
  forall k, (exists r, legal_find (table c) k r) /\
    forall r, legal_find (table c) k r -> lookup_exact (e_index E) (elems c) k r.
Proof.
  intros E ops g s Hr c. split.
  - exact (proj2 (proj2 (@prepare_flags E (@e_index E) (@e_prep E) s))).
  - intros k. split; [exists (find_first (table c) k); apply find_first_legal|].
    intros r Hf. apply legal_find_hash. unfold c in *.
    destruct (prepared_tables E ops g Hr) as [Ht _].
    rewrite Ht in Hf. exact Hf.
Qed.
Print Assumptions C01_find_exact.

Example C01_example : exists s, run_on pair_class demo_ops (fresh pair_class 77) = Ok s /\
  elems s = [(4, 7); (5, 7); (3, 7); (11, 2); (20, 7)] /\
  legal_find (table (prepare_on pair_class s)) 3 2 /\
  legal_find (table (prepare_on pair_class s)) 9 (-1).
Proof.
  eexists. split; [reflexivity|]. split; [reflexivity|]. split.
  - right. exists 2%nat. split; [vm_compute; auto|reflexivity].
  - left. split; reflexivity.
Qed.

(** *** C02 *)
Theorem C02_max_index : forall (E : elem_class) (ops : list (op E)) (garbage : Z) (s : arr E),
  run_on E ops (fresh E garbage) = Ok s ->
  let c := prepare_on E s in
  is_max (e_index E) (elems c) (maxIndex c) /\
  ~ (exists e, In e (elems c) /\ e_index E e = maxIndex c + 1).
Proof.
  intros E ops g s Hr c.
  destruct (prepared_tables E ops g Hr) as [_ Hm].
  change (prepare_on E s) with c in Hm.
  assert (Hge : forall e, In e (elems c) -> e_index E e <= maxIndex c)
    by (intros e He; rewrite Hm; apply max_index_ge; auto).
  split; [split; [exact Hge|rewrite Hm; apply max_index_attained]|].
  intros [e [He Hi]]. specialize (Hge e He). lia.
Qed.
Print Assumptions C02_max_index.

Example C02_example : exists s, run_on pair_class demo_ops (fresh pair_class (-5)) = Ok s /\
  maxIndex (prepare_on pair_class s) = 20.
Proof. eexists. split; reflexivity. Qed.

(** *** C03 *)
(** remove keeps exactly the elements whose index is not listed, in order. *)
Theorem C03_remove_exact : forall (E : elem_class) (del : list Z) (s : arr E),
  elems (remove (e_index E) del s) =
  filter (fun e => if in_dec Z.eq_dec (e_index E e) del then false else true) (elems s).
Proof. intros E del s. exact (remove_elems (e_index E) del s). Qed.
Print Assumptions C03_remove_exact.

(** A container that answers true to checkready() answers lookups exactly. *)
Theorem C03_checkready_partial : forall (E : elem_class) (ops : list (op E)) (garbage : Z) (s : arr E),
  run_on E ops (fresh E garbage) = Ok s -> checkready (e_ready E) s = true ->
  (forall k r, legal_find (table s) k r -> lookup_exact (e_index E) (elems s) k r) /\
  is_max (e_index E) (elems s) (maxIndex s).
Proof.
  intros E ops g s Hr Hc.
  destruct (checkready_tables E ops g Hr Hc) as [Ht Hm].
  split.
  - intros k r Hf. rewrite Ht in Hf. exact (legal_find_hash _ _ Hf).
  - rewrite Hm. split; [intros; apply max_index_ge; auto|apply max_index_attained].
Qed.
Print Assumptions C03_checkready_partial.

(** Without a remove in the history, the ready flag itself can be trusted. *)
Theorem C03_ready_partial : forall (E : elem_class) (ops : list (op E)) (garbage : Z) (s : arr E),
  forallb (fun o => negb (is_remove o)) ops = true ->
  run_on E ops (fresh E garbage) = Ok s -> readyforuse s = true ->
  forall k r, legal_find (table s) k r -> lookup_exact (e_index E) (elems s) k r.
Proof.
  intros E ops g s Hn Hr Hc k r Hf.
  destruct (ready_tables E ops g Hn Hr Hc) as [Ht _].
  rewrite Ht in Hf. exact (legal_find_hash _ _ Hf).
Qed.
Print Assumptions C03_ready_partial.

(** With one, it cannot: the container reports itself ready and finds the
    removed element (at a position that is now out of range). *)
Theorem C03_ready_after_remove_refuted : exists (ops : list (op pair_class)) s k r,
  run_on pair_class ops (fresh pair_class 0) = Ok s /\ readyforuse s = true /\
  legal_find (table s) k r /\
  ~ (exists e, In e (elems s) /\ fst e = k) /\ r <> -1 /\ at_ (elems s) r = UB.
Proof.
  exists [@OPush pair_class (1, 0); @OPush pair_class (2, 0); OPrepare; ORemove [2]].
  eexists. exists 2, 1. split; [reflexivity|]. split; [reflexivity|]. split.
  - right. exists 1%nat. split; [vm_compute; auto|reflexivity].
  - split; [|split; [discriminate|reflexivity]].
    intros [e [He Hk]]. vm_compute in He. destruct He as [<-|[]]. discriminate.
Qed.
Print Assumptions C03_ready_after_remove_refuted.

Example C03_example : exists s,
  run_on pair_class (demo_ops ++ [ORemove [3; 4; 4; 99]; OPrepare]) (fresh pair_class 0) = Ok s /\
  elems s = [(5, 7); (11, 2); (20, 7)] /\ checkready (e_ready pair_class) s = true.
Proof. eexists. repeat split; reflexivity. Qed.

(** *** C04 *)
Theorem C04_populate : forall (E : elem_class) (s : arr E),
  let c := populate (e_index E) (e_set E) s in
  length (elems c) = length (elems s) /\
  (forall p e, nth_error (elems c) p = Some e -> e_index E e = Z.of_nat p + 1) /\
  maxIndex c = Z.of_nat (length (elems s)) /\
  forall k r, legal_find (table c) k r ->
    r = if (1 <=? k) && (k <=? Z.of_nat (length (elems s))) then k - 1 else -1.
Proof.
  intros E s c.
  assert (Hlen : length (elems c) = length (elems s)) by apply number_from_length.
  assert (Hidx : forall p e, nth_error (elems c) p = Some e -> e_index E e = Z.of_nat p + 1).
  { intros p e H. apply (@number_from_index E (@e_index E) (@e_set E) (@e_set_index E)) in H. lia. }
  split; [exact Hlen|]. split; [exact Hidx|]. split; [reflexivity|].
  intros k r Hf. change (table c) with (hash_all (e_index E) (elems c)) in Hf.
  apply legal_find_hash in Hf. destruct Hf as [Hno Hyes].
  destruct (Z.eq_dec r (-1)) as [->|Hr].
  - destruct ((1 <=? k) && (k <=? Z.of_nat (length (elems s)))) eqn:Hk; [|reflexivity].
    exfalso. apply (proj1 Hno eq_refl).
    destruct (nth_error (elems c) (Z.to_nat (k - 1))) as [e|] eqn:He.
    + exists e. split; [eapply nth_error_In; eauto|]. rewrite (Hidx _ _ He). lia.
    + apply nth_error_None in He. lia.
  - destruct (Hyes Hr) as [e [Ha Hk]]. apply at_Ok in Ha. destruct Ha as [Hp Hn].
    pose proof (Hidx _ _ Hn) as Hi.
    assert (Z.to_nat r < length (elems c))%nat by (apply nth_error_Some; congruence).
    assert ((1 <=? k) && (k <=? Z.of_nat (length (elems s))) = true) as -> by lia. lia.
Qed.
Print Assumptions C04_populate.

Example C04_example :
  let s := {| elems := [(9, 1); (9, 2); (-3, 3)]; table := [(4, 8%nat)]; maxIndex := 0; isHash := true;
              isSetMI := false; readyforuse := true; isInMesh := false |} in
  elems (populate (e_index pair_class) (e_set pair_class) s) = [(1, 1); (2, 2); (3, 3)].
Proof. reflexivity. Qed.

(** *** C05 *)
(** Histories of every operation except the three inherited ones that bypass
    the parent table (assign, Init, read). *)
Theorem C05_parent_lookup_partial : forall (E : elem_class) (ops : list (op E)) (garbage : Z) (s : snak E),
  forallb (@keeps_parent E) ops = true ->
  srun_on E ops (sfresh E garbage) = Ok s ->
  let c := sprepare_on E s in
  forall k,
    positions_exact (e_parent E) (elems (base c)) k (entries k (ptable c)) /\
    countparent k c = Z.of_nat (length (filter (fun e => e_parent E e =? k) (elems (base c)))) /\
    forall r, legal_find (ptable c) k r -> lookup_exact (e_parent E) (elems (base c)) k r.
Proof.
  intros E ops g s Hk Hr c k.
  assert (Ht : ptable c = hash_all (e_parent E) (elems (base c))).
  { exact (sprepared_table E ops g Hk Hr). }
  split; [rewrite Ht; apply positions_exact_hash|]. split.
  - unfold countparent. rewrite Ht, entries_hash_all. f_equal. unfold positions.
    clear. generalize (elems (base c)) 0%nat. intros l0. induction l0 as [|e l IH]; intros n; [reflexivity|].
    cbn [positions_from filter]. destruct (e_parent E e =? k); cbn [length]; rewrite IH; reflexivity.
  - intros r Hf. rewrite Ht in Hf. exact (legal_find_hash _ _ Hf).
Qed.
Print Assumptions C05_parent_lookup_partial.

(** The index table of such a container is exact for every history. *)
Theorem C05_index_lookup : forall (E : elem_class) (ops : list (op E)) (garbage : Z) (s : snak E),
  srun_on E (ops ++ [OPrepare]) (sfresh E garbage) = Ok s ->
  forall k r, legal_find (table (base s)) k r -> lookup_exact (e_index E) (elems (base s)) k r.
Proof.
  intros E ops g s Hr k r Hf. rewrite (snak_srun_inv _ _ _ Hr) in Hf; [exact (legal_find_hash _ _ Hf)|].
  clear Hf. revert Hr. generalize (sfresh E g) as s0. unfold srun_on.
  induction ops as [|o ops IH]; intros s0; cbn [app srun sstep bind].
  - intros [= <-]. unfold sprepare. cbn [isHashParent].
    destruct (isHashParent s0); cbn [base hash_parent];
      exact (proj1 (@prepare_flags E (@e_index E) (@e_prep E) (base s0))).
  - destruct (sstep _ _ _ _ _ _ s0 o); cbn [bind]; try discriminate. apply IH.
Qed.
Print Assumptions C05_index_lookup.

(** With read (as snake::read uses it on a used snake) PrepareForUse leaves the
    old siblings in place. *)
Theorem C05_stale_parent_after_read_refuted : exists (ops : list (op pair_class)) s k,
  srun_on pair_class ops (sfresh pair_class 0) = Ok s /\
  let c := sprepare_on pair_class s in
  isHashParent c = true /\ readyforuse (base c) = true /\
  ~ positions_exact (e_parent pair_class) (elems (base c)) k (entries k (ptable c)).
Proof.
  exists [@OPush pair_class (1, 5); OPrepare; @ORead pair_class false [(1, 8); (2, 9)]].
  eexists. exists 5. split; [reflexivity|]. split; [reflexivity|]. split; [reflexivity|].
  intros [_ H]. specialize (H 0%nat). destruct H as [H _].
  destruct H as [e [He Hk]]; [vm_compute; auto|]. vm_compute in He. injection He as <-. discriminate.
Qed.
Print Assumptions C05_stale_parent_after_read_refuted.

Example C05_example : exists s, srun_on pair_class demo_ops (sfresh pair_class 0) = Ok s /\
  forallb (@keeps_parent pair_class) demo_ops = true /\
  entries 7 (ptable (sprepare_on pair_class s)) = [0; 1; 2; 4]%nat.
Proof. eexists. repeat split; reflexivity. Qed.

(** *** C06 *)
(** Any set of distinct positions can be taken out, in any order, for every
    hash ordering of a current table; each call removes its own entry only. *)
Theorem C06_dehash_partial : forall (T : Type) (parent : T -> Z) (s : snak T) (ps : list Z),
  grouped (ptable s) ->
  Permutation (hash_all parent (elems (base s))) (ptable s) ->
  NoDup ps ->
  (forall p, In p ps -> 0 <= p < Z.of_nat (length (elems (base s)))) ->
  exists s', dehash_calls parent ps s = Ok s' /\ base s' = base s /\
    forall k, NoDup (entries k (ptable s')) /\
      forall p, In p (entries k (ptable s')) <->
        (exists e, nth_error (elems (base s)) p = Some e /\ parent e = k) /\ ~ In (Z.of_nat p) ps.
Proof. exact dehash_exact. Qed.
Print Assumptions C06_dehash_partial.

(** memberIsHashParent says whether the entry is still there. *)
Theorem C06_member : forall (T : Type) (parent : T -> Z) (s : snak T) (p : Z) (e : T),
  grouped (ptable s) -> at_ (elems (base s)) p = Ok e ->
  exists b, member_is_hash_parent parent p s = Ok b /\
    (b = true <-> In (Z.to_nat p) (entries (parent e) (ptable s))).
Proof.
  intros T parent s p e Hg He. unfold member_is_hash_parent. rewrite He. cbn [bind].
  eexists. split; [reflexivity|]. rewrite entries_In. apply walk_safe_seek. exact Hg.
Qed.
Print Assumptions C06_member.

(** Taking out the same position twice dereferences the end iterator. *)
Theorem C06_dehash_twice_refuted : exists (s s' : snak (Z * Z)) (p : Z),
  isHashParent s = true /\ ptable s = hash_all snd (elems (base s)) /\
  dehash_parent snd p s = Ok s' /\ dehash_parent snd p s' = UB.
Proof.
  exists (hash_parent snd (spush_back fst snd (1, 5) (sfresh (Z * Z) 0))).
  eexists. exists 0. split; [reflexivity|]. split; [reflexivity|]. split; reflexivity.
Qed.
Print Assumptions C06_dehash_twice_refuted.

Example C06_example :
  let s := {| base := {| elems := [(1, 5); (2, 6); (3, 5)]; table := []; maxIndex := 3; isHash := false;
                         isSetMI := true; readyforuse := true; isInMesh := false |};
              ptable := [(6, 1%nat); (5, 2%nat); (5, 0%nat)]; isHashParent := true |} in
  grouped (ptable s) /\ Permutation (hash_all snd (elems (base s))) (ptable s) /\
  exists s', dehash_calls snd [0; 1] s = Ok s' /\ ptable s' = [(5, 2%nat)].
Proof.
  cbn. split; [|split].
  - repeat (constructor; [|cbn; try (left; reflexivity); right; intuition discriminate]). constructor.
  - apply Permutation_cons_app with (l1 := [(6, 1%nat); (5, 2%nat)]) (l2 := []).
    apply Permutation_refl.
  - eexists. split; reflexivity.
Qed.

(** *** C07 *)
(** ReturnModifInd lists exactly the elements reached through operator[]. *)
Theorem C07_modif_ind_partial : forall (T : Type) (index : T -> Z) (l : list T) (flags : list bool)
    (ops : list (mop T)) (s : marr T),
  length flags = length l ->
  mrun ops (set_no_modif (combine l flags)) = Ok s ->
  length s = length l /\
  return_modif_ind index s =
    map (fun pe => index (fst (snd pe)))
        (filter (fun pe => written (fst pe) ops) (combine (seq 0 (length s)) s)) /\
  (forall p e, nth_error l p = Some e -> written p ops = false -> nth_error s p = Some (e, false)).
Proof.
  intros T index l flags ops s Hl Hr. destruct (modif_after _ _ _ Hl Hr) as [Hlen [Hw Hk]].
  split; [exact Hlen|]. split; [|exact Hk].
  unfold return_modif_ind. clear Hl Hr Hk Hlen l flags.
  assert (H : forall p e', nth_error s p = Some e' -> snd e' = written (0 + p) ops) by exact Hw.
  clear Hw. revert H. generalize 0%nat. induction s as [|e s IH]; intros n H; [reflexivity|].
  cbn [length seq combine filter fst]. specialize (H 0%nat e eq_refl) as H0. rewrite Nat.add_0_r in H0.
  rewrite <- H0. specialize (IH (S n)).
  assert (Hs : forall p e', nth_error s p = Some e' -> snd e' = written (S n + p) ops).
  { intros p e' Hp. specialize (H (S p) e' Hp). rewrite H. f_equal. lia. }
  destruct (snd e); cbn [map fst snd]; rewrite IH; auto.
Qed.
Print Assumptions C07_modif_ind_partial.

(** ReturnModifLog does not: it flags untouched elements. *)
Theorem C07_modif_log_refuted : exists (l : list Z) (ops : list (mop Z)) s,
  mrun ops (set_no_modif (combine l [true; true])) = Ok s /\
  return_modif_ind (fun x => x) s = [8] /\
  return_modif_log (fun x => x) s = [true; true].
Proof.
  exists [3; 4], [MRead 0; MWrite 1 (fun _ => 8)]. eexists. repeat split; reflexivity.
Qed.
Print Assumptions C07_modif_log_refuted.

(** *** C08 *)
(** After GenerateHash and any pushes or clears, whatever happened before. *)
Theorem C08_hashed_vector_partial : forall (pre post : list hop) (s : hvec),
  forallb hv_keeps post = true ->
  hrun (pre ++ HGenerate :: post) hv_fresh = Ok s ->
  forall k,
    positions_exact (fun x => x) (vec s) k (hv_findall k s) /\
    hv_count k s = Z.of_nat (count_occ Z.eq_dec (vec s) k) /\
    forall r, legal_find (vtable s) k r -> lookup_exact (fun x => x) (vec s) k r.
Proof.
  intros pre post s Hp Hr k. pose proof (hv_current _ _ Hp Hr) as Hi. unfold hinv in Hi.
  unfold hv_findall, hv_count. rewrite Hi.
  split; [apply positions_exact_hash|]. split.
  - rewrite entries_hash_all, filter_count_occ. reflexivity.
  - intros r Hf. exact (legal_find_hash _ _ Hf).
Qed.
Print Assumptions C08_hashed_vector_partial.

(** Writing through operator[] leaves the table out of date with isHash set. *)
Theorem C08_stale_after_write_refuted : exists ops s,
  hrun ops hv_fresh = Ok s /\ visHash s = true /\
  hv_count 6 s = 0 /\ In 6 (vec s) /\ find_first (vtable s) 5 = 0 /\ ~ In 5 (vec s).
Proof.
  exists [HPush 5; HWrite 0 6]. eexists. split; [reflexivity|].
  repeat split; vm_compute; auto. intros [H|[]]; discriminate.
Qed.
Print Assumptions C08_stale_after_write_refuted.

Example C08_example : exists s,
  hrun ([HPush 1; HAssign 3 4; HWrite 0 7] ++ HGenerate :: [HPush 4; HPush 9]) hv_fresh = Ok s /\
  vec s = [7; 4; 4; 4; 9] /\ hv_findall 4 s = [1; 2; 3]%nat.
Proof. eexists. repeat split; reflexivity. Qed.

(** FindSubList with a table that is empty or built from the same list gives
    exact answers ... *)
Theorem C08_find_sub_list : forall (keyFind keyList : list Z) (t : htable),
  t = [] \/ t = hash_all (fun x => x) keyList ->
  Forall2 (lookup_exact (fun x => x) keyList) keyFind (fst (find_sub_list keyFind keyList t)).
Proof.
  intros kf kl t Ht. unfold find_sub_list. cbn [fst].
  assert (E : match t with [] => hash_all (fun x => x) kl | _ :: _ => t end = hash_all (fun x => x) kl).
  { destruct Ht as [->| ->]; [reflexivity|]. destruct (hash_all (fun x => x) kl); reflexivity. }
  rewrite E. clear E Ht t. induction kf as [|k r IH]; cbn [map]; constructor; auto.
  apply legal_find_hash, find_first_legal.
Qed.
Print Assumptions C08_find_sub_list.

(** ... but reusing a table filled from another list does not. *)
Theorem C08_find_sub_list_reused_refuted : exists (t : htable) a b,
  snd (find_sub_list [1] a []) = t /\ fst (find_sub_list [1] b t) = [1] /\ b = [1; 2].
Proof. exists (hash_all (fun x => x) [3; 1]), [3; 1], [1; 2]. repeat split; reflexivity. Qed.
Print Assumptions C08_find_sub_list_reused_refuted.

(** EraseKeyPair never changes the caller's table. *)
Theorem C08_erase_key_pair_refuted : exists t, erase_key_pair t 5 0 = Ok t /\ In (5, 0%nat) t.
Proof. exists [(5, 0%nat); (6, 1%nat)]. split; [reflexivity|simpl; auto]. Qed.
Print Assumptions C08_erase_key_pair_refuted.

(** *** C09 *)
(** Every contribution list within the matrix dimensions: each entry of the
    dense matrix is the in-order sum of the contributions made to it. *)
Theorem C09_accumulate : forall (S_ : Type) (szero : S_) (sadd : S_ -> S_ -> S_) (nRow nCol : Z)
    (l : list (Z * Z * S_)),
  nRow * nCol <= 2147483648 ->
  Forall (fun c => 0 <= fst (fst c) < nRow /\ 0 <= snd (fst c) < nCol) l ->
  exists s m, sm_accumulate szero sadd nRow l (hp_fresh S_) = Ok s /\
    sm_dense szero nRow s = Ok m /\
    forall i j, 0 <= i < nRow -> 0 <= j < nCol ->
      m i j = fold_left (fun acc c => if (fst (fst c) =? i) && (snd (fst c) =? j) then sadd acc (snd c) else acc) l szero.
Proof.
  intros S_ szero sadd nRow nCol l Hsz Hd.
  destruct (@sm_total S_ szero sadd nRow nCol l Hsz Hd) as [s [m [E1 [E2 E3]]]].
  exists s, m. split; [exact E1|]. split; [exact E2|]. intros i j Hi Hj. rewrite (E3 i j Hi Hj).
  clear. generalize szero as acc.
  induction l as [|[[a b] v] r IH]; intros acc; [reflexivity|]. cbn [contributions fold_left fst snd]. apply IH.
Qed.
Print Assumptions C09_accumulate.

(** The keyed vector itself, for any sequence of writes through operator():
    each key holds the result of its own writes, in order, starting from the
    default; keys never written read as the default. *)
Theorem C09_keyed_pair : forall (S_ : Type) (szero : S_) (l : list (Z * (S_ -> S_))),
  exists s, hp_updates szero l (hp_fresh S_) = Ok s /\
    forall k, hp_get szero k s =
      Ok (fold_left (fun acc w => if fst w =? k then snd w acc else acc) l szero).
Proof. exact hp_updates_spec. Qed.
Print Assumptions C09_keyed_pair.

(** Without the size bound the int key overflows: a legal entry of a
    50000 x 50000 matrix. *)
Theorem C09_large_matrix_refuted : exists nRow nCol a b, 0 <= a < nRow /\ 0 <= b < nCol /\
  nRow <= 2147483647 /\ nCol <= 2147483647 /\
  sm_accumulate 0 Z.add nRow [(a, b, 1)] (hp_fresh Z) = UB.
Proof. exists 50000, 50000, 0, 49999. repeat split; try lia. Qed.
Print Assumptions C09_large_matrix_refuted.

Example C09_example : exists s m,
  sm_accumulate 0 Z.add 3 [(0, 1, 5); (2, 3, 4); (0, 1, 6)] (hp_fresh Z) = Ok s /\
  sm_dense 0 3 s = Ok m /\ m 0 1 = 11 /\ m 2 3 = 4 /\ m 1 1 = 0 /\ pvec s = [3; 11].
Proof. do 2 eexists. split; [reflexivity|]. split; [reflexivity|]. repeat split; reflexivity. Qed.

(** *** C10 (vectors; meshes are in PropsMesh) *)
Theorem C10_sort_unique : forall l,
  StronglySorted Z.lt (tighten l) /\ (forall z, In z (tighten l) <-> In z l) /\
  tighten (tighten l) = tighten l /\
  (StronglySorted Z.lt l -> tighten l = l).
Proof.
  intros l. split; [apply tighten_strict|]. split; [intros z; apply tighten_In|].
  split; [apply tighten_idem|]. intros Hs. apply strict_ext; auto using tighten_strict.
  intros z; apply tighten_In.
Qed.
Print Assumptions C10_sort_unique.

Example C10_example : tighten [4; 1; 4; 0; 1; 9] = [0; 1; 4; 9].
Proof. reflexivity. Qed.
