(** Printing and scanning are inverse: proofs about the text of the files. *)
From Coq Require Import Reals Lia Lra.
From Flocq Require Import Core.
From Verif Require Import Base Containers Mesh Codec SpecCodec.
Set Implicit Arguments.
Open Scope Z_scope.

(** ** Runs of decimal digits *)
Definition is_digit (c : Z) : Prop := 48 <= c <= 57.
Definition value (l : list Z) (a : Z) : Z := fold_left (fun a c => a * 10 + (c - 48)) l a.
Definition ends (l : list Z) : Prop := match l with [] => True | c :: _ => ~ is_digit c end.

Lemma value_app l l' a : value (l ++ l') a = value l' (value l a).
Proof. apply fold_left_app. Qed.
Lemma value_shift l : forall a, value l a = a * 10 ^ Z.of_nat (length l) + value l 0.
Proof.
  induction l as [|c l IH]; intros a; cbn [value fold_left length]; [cbn; lia|].
  fold (value l (a * 10 + (c - 48))) (value l (0 * 10 + (c - 48))).
  rewrite IH, (IH (0 * 10 + _)), Nat2Z.inj_succ, Z.pow_succ_r by lia. ring.
Qed.
Lemma digit_ok c : is_digit c -> digit 10 c = Some (c - 48).
Proof.
  intros H. unfold is_digit in H. unfold digit.
  destruct (Z.leb_spec 48 c), (Z.leb_spec c 57); try lia. cbn [andb].
  destruct (Z.ltb_spec (c - 48) 10); [easy|lia].
Qed.
Lemma digit_not c : ~ is_digit c -> digit 10 c = None.
Proof.
  intros H. unfold is_digit in H. unfold digit.
  destruct (Z.leb_spec 48 c), (Z.leb_spec c 57); try lia; cbn [andb];
    destruct (Z.leb_spec 97 c), (Z.leb_spec c 102); try lia; cbn [andb];
    destruct (Z.leb_spec 65 c), (Z.leb_spec c 70); try lia; cbn [andb];
    try (destruct (Z.ltb_spec (c - 87) 10); [lia|easy]);
    try (destruct (Z.ltb_spec (c - 55) 10); [lia|easy]); easy.
Qed.
Lemma scan_digits_ok ds : forall rest a n, Forall is_digit ds -> ends rest ->
  scan_digits 10 (ds ++ rest) a n = (value ds a, n + Z.of_nat (length ds), rest).
Proof.
  induction ds as [|c ds IH]; intros rest a n D E; cbn [app].
  - cbn [value fold_left length Z.of_nat]. rewrite Z.add_0_r.
    destruct rest as [|c r]; [easy|]. cbn [scan_digits]. now rewrite (digit_not E).
  - inversion D as [|? ? Dc Dr]; subst. cbn [scan_digits]. rewrite (digit_ok Dc), (IH _ _ _ Dr E).
    cbn [value fold_left length]. rewrite Nat2Z.inj_succ. unfold value. replace (n + 1 + Z.of_nat (length ds)) with (n + Z.succ (Z.of_nat (length ds))) by lia. easy.
Qed.

Lemma digits_ok f : forall n acc, (1 <= f)%nat -> 0 <= n < 10 ^ Z.of_nat f ->
  exists ds, digits f n acc = ds ++ acc /\ Forall is_digit ds /\ value ds 0 = n /\
             (n = 0 -> ds = [48]) /\ (0 < n -> exists c r, ds = c :: r /\ 49 <= c <= 57).
Proof.
  induction f as [|f IH]; intros n acc F N; [lia|].
  rewrite Nat2Z.inj_succ, Z.pow_succ_r in N by lia.
  cbn [digits]. destruct (Z.ltb_spec n 10) as [L|L].
  - exists [48 + n]. repeat split.
    + repeat constructor; lia.
    + unfold value. cbn [fold_left]. lia.
    + intros ->. easy.
    + intros P. exists (48 + n), []. split; [easy|lia].
  - assert (F1 : (1 <= f)%nat) by (destruct f; [cbn in N; lia|lia]).
    assert (M := Z.mod_pos_bound n 10). assert (Dv := Z.div_mod n 10).
    destruct (IH (n / 10) ((48 + n mod 10) :: acc) F1) as (ds & E & D & V & _ & P).
    { split; [apply Z.div_pos; lia|]. apply Z.div_lt_upper_bound; lia. }
    exists (ds ++ [48 + n mod 10]). repeat split.
    + rewrite E, <- app_assoc. easy.
    + apply Forall_app. split; [easy|]. repeat constructor; lia.
    + rewrite value_app, V. unfold value. cbn [fold_left]. lia.
    + lia.
    + intros _. destruct (P ltac:(apply Z.div_str_pos; lia)) as (c & r & -> & C).
      exists c, (r ++ [48 + n mod 10]). easy.
Qed.
Lemma print_nat_ok n : 0 <= n ->
  Forall is_digit (print_nat n) /\ value (print_nat n) 0 = n /\
  (n = 0 -> print_nat n = [48]) /\ (0 < n -> exists c r, print_nat n = c :: r /\ 49 <= c <= 57).
Proof.
  intros N. unfold print_nat.
  destruct (digits_ok (f := S (Z.to_nat (Z.log2 n))) (n := n) []) as (ds & E & H); [lia| |].
  - split; [easy|]. rewrite Nat2Z.inj_succ, Z2Nat.id by apply Z.log2_nonneg.
    destruct (Z.eq_dec n 0) as [->|NZ]; [easy|].
    assert (L := Z.log2_spec n ltac:(lia)).
    assert (P := Z.pow_le_mono_l 2 10 (Z.succ (Z.log2 n)) ltac:(lia)). lia.
  - rewrite app_nil_r in E. now rewrite E.
Qed.
Lemma print_nat_cons n : 0 <= n -> exists c r, print_nat n = c :: r /\ is_digit c.
Proof.
  intros N. destruct (print_nat_ok N) as (D & _ & Z0 & P).
  destruct (Z.eq_dec n 0) as [E|E].
  - rewrite (Z0 E). exists 48, []. split; [easy|unfold is_digit; lia].
  - destruct (P ltac:(lia)) as (c & r & -> & C). exists c, r. split; [easy|unfold is_digit; lia].
Qed.
Lemma fixed_ok k : forall n acc, 0 <= n ->
  exists ds, fixed k n acc = ds ++ acc /\ Forall is_digit ds /\ length ds = k /\ value ds 0 = n mod 10 ^ Z.of_nat k.
Proof.
  induction k as [|k IH]; intros n acc N; cbn [fixed].
  - exists []. cbn. repeat split; [constructor|]. now rewrite Z.mod_1_r.
  - assert (M := Z.mod_pos_bound n 10).
    destruct (IH (n / 10) ((48 + n mod 10) :: acc) ltac:(apply Z.div_pos; lia)) as (ds & E & D & L & V).
    exists (ds ++ [48 + n mod 10]). repeat split.
    + rewrite E, <- app_assoc. easy.
    + apply Forall_app. split; [easy|]. repeat constructor; lia.
    + rewrite app_length. cbn. lia.
    + rewrite value_app, V. cbn [value fold_left]. rewrite Nat2Z.inj_succ, Z.pow_succ_r by lia.
      rewrite (Z.rem_mul_r n 10 (10 ^ Z.of_nat k)) by (try apply Z.pow_pos_nonneg; lia). lia.
Qed.

(** ** White space *)
Lemma digit_no_space c : is_digit c -> is_space c = false.
Proof.
  unfold is_digit, is_space. intros H. destruct (Z.eqb_spec c 32); [lia|]. cbn [orb].
  destruct (Z.leb_spec 9 c), (Z.leb_spec c 13); try lia; easy.
Qed.
Lemma skip_digit c l : is_digit c -> skip (c :: l) = c :: l.
Proof. intros H. cbn [skip]. now rewrite digit_no_space. Qed.
Lemma skip_skip l : skip (skip l) = skip l.
Proof.
  induction l as [|c l IH]; [easy|]. cbn [skip]. destruct (is_space c) eqn:E; [easy|].
  cbn [skip]. now rewrite E.
Qed.
Lemma rint_skip l : rint (skip l) = rint l.
Proof. unfold rint, scan_int. now rewrite skip_skip. Qed.
Lemma rdbl_skip l : rdbl (skip l) = rdbl l.
Proof. unfold rdbl, scan_dbl. now rewrite skip_skip. Qed.

(** ** Numbers *)
Lemma sign_digit c l : is_digit c -> scan_sign (c :: l) = (false, c :: l).
Proof.
  unfold is_digit. intros H. unfold scan_sign.
  destruct (Z.eqb_spec c 45), (Z.eqb_spec c 43); try lia; easy.
Qed.
Lemma scan_base n rest : 0 <= n -> ends rest -> (forall c r, rest = c :: r -> c = 32) ->
  match print_nat n ++ rest with
  | 48 :: c :: r => if ((c =? 120) || (c =? 88))%bool then scan_digits 16 r 0 0 else scan_digits 8 (print_nat n ++ rest) 0 0
  | _ => scan_digits 10 (print_nat n ++ rest) 0 0
  end = (n, Z.of_nat (length (print_nat n)), rest).
Proof.
  intros N E E32. destruct (print_nat_ok N) as (D & V & Z0 & P).
  destruct (Z.eq_dec n 0) as [X|X].
  - rewrite (Z0 X), X. cbn [app]. destruct rest as [|c r]; [easy|]. rewrite (E32 _ _ eq_refl). reflexivity.
  - assert (S := scan_digits_ok _ 0 0 D E). rewrite V in S. cbn [Z.add] in S.
    destruct (P ltac:(lia)) as (c & r & Pn & C). rewrite Pn in *. cbn [app] in *.
    assert (c = 49 \/ c = 50 \/ c = 51 \/ c = 52 \/ c = 53 \/ c = 54 \/ c = 55 \/ c = 56 \/ c = 57) as C' by lia.
    decompose [or] C'; subst c; exact S.
Qed.
Lemma scan_int_print z rest : scan_int (print_int z ++ 32 :: rest) = Some (z, 32 :: rest).
Proof.
  assert (E : ends (32 :: rest)) by (cbn; unfold is_digit; lia).
  assert (E32 : forall c r, 32 :: rest = c :: r -> c = 32) by congruence.
  unfold print_int, scan_int. destruct (Z.ltb_spec z 0) as [L|L].
  - change (skip ((45 :: print_nat (- z)) ++ 32 :: rest)) with (45 :: (print_nat (- z) ++ 32 :: rest)).
    change (scan_sign (45 :: (print_nat (- z) ++ 32 :: rest))) with (true, print_nat (- z) ++ 32 :: rest).
    cbv iota beta. rewrite (scan_base (n := - z) ltac:(lia) E E32). cbv iota beta.
    destruct (print_nat_cons (n := - z) ltac:(lia)) as (c & r & -> & _).
    destruct (Z.eqb_spec (Z.of_nat (length (c :: r))) 0) as [X|X]; [cbn in X; lia|]. do 2 f_equal. lia.
  - assert (S := scan_base (n := z) L E E32).
    destruct (print_nat_cons L) as (c & r & Pn & C). rewrite Pn in *. cbn [app] in *.
    rewrite (skip_digit _ C), (sign_digit _ C). cbv iota beta. rewrite S. cbv iota beta.
    destruct (Z.eqb_spec (Z.of_nat (length (c :: r))) 0) as [X|X]; [cbn in X; lia|]. easy.
Qed.

(** What a reader finds after a number has been printed with [k] decimals. *)
Definition reprint (k : nat) (x : dbl) : dbl :=
  match x with
  | Fin neg a => to_dbl neg (IZR (ZnearestE (a * bpow ten (Z.of_nat k))) * bpow ten (- Z.of_nat k))%R
  | _ => x
  end.
Definition magnitude_ok (x : dbl) : Prop := match x with Fin _ a => (0 <= a)%R | _ => True end.
Lemma nearest_pos x : (0 <= x)%R -> 0 <= ZnearestE x.
Proof. intros H. rewrite <- (Zrnd_IZR ZnearestE 0). now apply Zrnd_le; [apply valid_rnd_N|]. Qed.

Lemma after_digit c l w x : is_digit c -> 58 <= x -> after (x :: w) (c :: l) = None.
Proof. unfold is_digit. intros H X. cbn [after]. destruct (Z.eqb_spec x c); [lia|easy]. Qed.
Lemma scan_frac l1 n k rest (neg : bool) : 0 <= n ->
  l1 = print_nat (n / 10 ^ Z.of_nat k) ++ [46] ++ fixed k n [] ++ 32 :: rest ->
  (match after [105; 110; 102] l1, after [110; 97; 110] l1 with
  | Some r, _ => Some (Inf neg, r)
  | None, Some r => Some (NaN, r)
  | None, None =>
    let '(v, n, r) := scan_digits 10 l1 0 0 in
    let '(v', n', r') := match r with
                         | 46 :: r1 => scan_digits 10 r1 v 0
                         | _ => (v, 0, r)
                         end in
    if n + n' =? 0 then None
    else let (e, r2) := scan_exp r' in Some (to_dbl neg (IZR v' * bpow ten (e - n'))%R, r2)
  end) = Some (to_dbl neg (IZR n * bpow ten (- Z.of_nat k))%R, 32 :: rest).
Proof.
  intros N ->. set (q := n / 10 ^ Z.of_nat k).
  assert (T : 0 < 10 ^ Z.of_nat k) by (apply Z.pow_pos_nonneg; lia).
  assert (Q : 0 <= q) by (apply Z.div_pos; lia).
  assert (E46 : ends ([46] ++ fixed k n [] ++ 32 :: rest)) by (cbn; unfold is_digit; lia).
  assert (E32 : ends (32 :: rest)) by (cbn; unfold is_digit; lia).
  destruct (print_nat_ok Q) as (D & V & _ & _).
  assert (S := scan_digits_ok _ 0 0 D E46). rewrite V in S.
  destruct (print_nat_cons Q) as (c & r & Pn & C). rewrite Pn in *.
  cbn [app] in S |- *. rewrite !(after_digit _ _ C) by lia. rewrite S. cbv iota beta.
  destruct (fixed_ok k [] N) as (ds & E & Df & L & Vf). rewrite E, app_nil_r.
  rewrite (scan_digits_ok _ q 0 Df E32), value_shift, Vf, L. cbn [Z.add].
  destruct (Z.eqb_spec (Z.of_nat (length (c :: r)) + Z.of_nat k) 0) as [X|X]; [cbn [length] in X; lia|].
  change (scan_exp (32 :: rest)) with (0, 32 :: rest). cbv iota beta. rewrite Z.sub_0_l.
  do 4 f_equal. f_equal. unfold q. rewrite Z.mul_comm. symmetry. apply Z.div_mod. lia.
Qed.
Lemma scan_dbl_print k x rest : magnitude_ok x ->
  scan_dbl (print_dbl k x ++ 32 :: rest) = Some (reprint k x, 32 :: rest).
Proof.
  destruct x as [neg a|[|]|]; intros M; [|reflexivity..].
  cbn [print_dbl reprint]. set (n := ZnearestE (a * bpow ten (Z.of_nat k))%R).
  assert (N : 0 <= n).
  { apply nearest_pos. apply Rmult_le_pos; [exact M|]. apply bpow_ge_0. }
  assert (Q : 0 <= n / 10 ^ Z.of_nat k) by (apply Z.div_pos; [|apply Z.pow_pos_nonneg]; lia).
  unfold scan_dbl. rewrite <- !app_assoc. destruct neg.
  - cbn [app skip]. change (is_space 45) with false. cbv iota.
    cbn [scan_sign]. change (45 =? 45) with true. cbv iota beta.
    apply (scan_frac k rest true N). easy.
  - cbn [app]. destruct (print_nat_cons Q) as (c & r & Pn & C). rewrite Pn. cbn [app].
    rewrite (skip_digit _ C), (sign_digit _ C). cbv iota beta.
    rewrite <- (scan_frac k rest false N (l1 := c :: r ++ 46 :: fixed k n [] ++ 32 :: rest)); [easy|].
    now rewrite Pn.
Qed.

(** ** Readers and writers *)
Definition reads {A} (r : reader A) (w : list Z) (v : A) : Prop :=
  forall rest, r (skip (w ++ rest)) = Ok (v, skip rest).
Lemma reads_ret {A} (a : A) : reads (rret a) [] a.
Proof. intros rest. reflexivity. Qed.
Lemma reads_bind {A B} (r : reader A) (k : A -> reader B) w w' v u :
  reads r w v -> reads (k v) w' u -> reads (rbind r k) (w ++ w') u.
Proof. intros R K rest. unfold rbind. rewrite <- app_assoc, R. apply K. Qed.
Lemma reads_end {A B} (r : reader A) (f : A -> B) w v :
  reads r w v -> reads (rd x <- r ; rret (f x)) w (f v).
Proof. intros R rest. unfold rbind. now rewrite R. Qed.
Lemma reads_nl {A} (a : A) : reads (rret a) nl a.
Proof. intros rest. reflexivity. Qed.
Lemma reads_int z : reads rint (wint z) z.
Proof.
  intros rest. rewrite rint_skip. unfold wint. rewrite <- app_assoc. cbn [app].
  unfold rint. now rewrite scan_int_print.
Qed.
Lemma reads_dbl k x : magnitude_ok x -> reads rdbl (wdbl k x) (reprint k x).
Proof.
  intros M rest. rewrite rdbl_skip. unfold wdbl. rewrite <- app_assoc. cbn [app].
  unfold rdbl. now rewrite scan_dbl_print.
Qed.
Lemma reads_bool b : reads rbool (wbool b) b.
Proof.
  intros rest. unfold rbool, rbind, wbool. rewrite reads_int. now destruct b.
Qed.
Lemma reads_many {A} (r : reader A) (w : A -> list Z) (f : A -> A) l :
  (forall x, In x l -> reads r (w x) (f x)) -> reads (rmany (length l) r) (concat (map w l)) (map f l).
Proof.
  induction l as [|x l IH]; intros H; [apply reads_ret|].
  cbn [length rmany map concat]. apply (reads_bind _ (H x (or_introl eq_refl))).
  apply (reads_end (fun xs => f x :: xs)). apply IH. intros y Y. apply H. now right.
Qed.
Lemma reads_list {A} (r : reader A) (w : A -> list Z) (f : A -> A) l :
  (forall x, In x l -> reads r (w x) (f x)) -> reads (rlist r) (wlist w l) (map f l).
Proof.
  intros H. unfold rlist, wlist. apply (reads_bind _ (reads_int _)).
  destruct (Z.ltb_spec (Z.of_nat (length l)) 0); [lia|]. rewrite Nat2Z.id. now apply reads_many.
Qed.
Lemma reads_ints l : reads (rlist rint) (wlist wint l) l.
Proof. rewrite <- (map_id l) at 2. apply reads_list. intros x _. apply reads_int. Qed.
Lemma reads_arr {A} (r : reader A) (w : A -> list Z) (f : A -> A) (a : farr A) :
  (forall x, In x (snd a) -> reads r (w x) (f x)) -> reads (read_arr r) (write_arr w a) (fst a, map f (snd a)).
Proof.
  intros H. unfold read_arr, write_arr. apply (reads_bind _ (reads_int _)).
  apply (reads_bind _ (reads_bool _)). destruct (Z.ltb_spec (Z.of_nat (length (snd a))) 0); [lia|].
  rewrite Nat2Z.id.
  assert (R := reads_end (fun l => (fst a, l)) (reads_many w f (snd a) H)).
  intros rest. rewrite <- app_assoc. cbn [app nl skip]. change (is_space 10) with true. cbv iota. apply R.
Qed.

Definition re_volu (v : fvolu) : fvolu :=
  mkFVolu (fv_volu v) (reprint 16 (fv_fill v)) (reprint 16 (fv_target v)) (reprint 16 (fv_error v)).
Definition re_surf (s : fsurf) : fsurf :=
  mkFSurf (mkSurf (su_index (fs_surf s)) (su_border (fs_surf s)) false (su_voluind (fs_surf s)) (su_edgeind (fs_surf s)))
          (reprint 16 (fs_fill s)) (reprint 16 (fs_target s)) (reprint 16 (fs_error s)).
Definition re_vert (v : fvert) : fvert := mkFVert (fe_vert v) (map (reprint 16) (fe_coord v)).
Definition re_snax (s : fsnax) : fsnax :=
  mkFSnax (fx_index s) (reprint 6 (fx_d s)) (reprint 6 (fx_v s)) (fx_edge s) (fx_from s) (fx_to s) (fx_freeze s) (fx_order s).
Definition re_cell (c : fcell) : fcell :=
  mkFCell (fc_index c) (fc_parent c) (reprint 6 (fc_n0 c)) (reprint 6 (fc_n1 c)) (reprint 6 (fc_n2 c)).
Definition re_mesh (m : fmesh) : fmesh :=
  mkFMesh (true, map re_vert (snd (f_verts m))) (true, snd (f_edges m))
          (true, map re_surf (snd (f_surfs m))) (true, map re_volu (snd (f_volus m))).

Ltac step := first [apply (reads_bind _ (reads_int _)) | apply (reads_bind _ (reads_bool _))
                   | apply (reads_bind _ (reads_ints _)) | (eapply reads_bind; [apply reads_dbl; easy|])].
Lemma reads_volu v : magnitude_ok (fv_fill v) -> magnitude_ok (fv_target v) -> magnitude_ok (fv_error v) ->
  reads read_volu (write_volu v) (re_volu v).
Proof.
  intros A B C. destruct v as [[i b s] f t e]. unfold read_volu, write_volu, re_volu. cbn in *.
  repeat step. apply reads_nl.
Qed.
Lemma reads_surf s : magnitude_ok (fs_fill s) -> magnitude_ok (fs_target s) -> magnitude_ok (fs_error s) ->
  reads read_surf (write_surf s) (re_surf s).
Proof.
  intros A B C. destruct s as [[i b o vs es] f t e]. unfold read_surf, write_surf, re_surf. cbn in *.
  repeat step. apply reads_nl.
Qed.
Lemma reads_edge e : reads read_edge (write_edge e) e.
Proof. destruct e as [i b s v]. unfold read_edge, write_edge. cbn. repeat step. apply reads_nl. Qed.
Lemma reads_vert v : Forall magnitude_ok (fe_coord v) -> reads read_vert (write_vert v) (re_vert v).
Proof.
  intros A. destruct v as [[i b e] c]. unfold read_vert, write_vert, re_vert. cbn in *. repeat step.
  eapply reads_bind; [|apply reads_nl].
  apply reads_list. intros x X. apply reads_dbl. exact (proj1 (Forall_forall _ _) A x X).
Qed.
Lemma reads_snax s : magnitude_ok (fx_d s) -> magnitude_ok (fx_v s) -> reads read_snax (write_snax s) (re_snax s).
Proof. intros A B. destruct s. unfold read_snax, write_snax, re_snax. cbn in *. repeat step. apply reads_nl. Qed.
Lemma reads_cell c : magnitude_ok (fc_n0 c) -> magnitude_ok (fc_n1 c) -> magnitude_ok (fc_n2 c) ->
  reads read_cell (write_cell c) (re_cell c).
Proof. intros A B C. destruct c. unfold read_cell, write_cell, re_cell. cbn in *. repeat step. apply reads_nl. Qed.

Lemma flat_ok {A} (P : dbl -> Prop) (f : A -> list dbl) l : Forall P (flat_map f l) -> forall x, In x l -> Forall P (f x).
Proof.
  intros H x X. apply Forall_forall. intros d D. apply (proj1 (Forall_forall _ _) H). apply in_flat_map. now exists x.
Qed.
Lemma reads_mesh m : Forall magnitude_ok (mesh_nums m) -> reads read_mesh (write_mesh m) (re_mesh m).
Proof.
  unfold mesh_nums. rewrite !Forall_app. intros (A & B & C).
  unfold read_mesh, write_mesh.
  eapply reads_bind; [apply (reads_arr _ re_vert); intros v V; apply reads_vert; exact (flat_ok _ _ A _ V)|].
  eapply reads_bind; [apply (reads_arr _ (fun e => e)); intros v V; apply reads_edge|].
  eapply reads_bind; [apply (reads_arr _ re_surf); intros s S; assert (H := flat_ok _ _ B _ S)|].
  { unfold surf_nums in H. rewrite !Forall_cons_iff in H. now apply reads_surf. }
  rewrite <- (app_nil_r (write_arr write_volu _)).
  eapply reads_bind; [apply (reads_arr _ re_volu); intros s S; assert (H := flat_ok _ _ C _ S)|].
  { unfold volu_nums in H. rewrite !Forall_cons_iff in H. now apply reads_volu. }
  cbn [snd fst]. rewrite map_id. apply reads_ret.
Qed.
Lemma reads_snake old s : Forall magnitude_ok (snake_nums s) ->
  reads (read_snake old) (write_snake s)
    (mkFSnake (fst (fk_snaxs s), map re_snax (snd (fk_snaxs s))) (fst (fk_edges s), map re_cell (snd (fk_edges s)))
              (fst (fk_surfs s), map re_cell (snd (fk_surfs s))) (re_mesh (fk_conn s)) (fk_inside old) (fk_flipped old)).
Proof.
  unfold snake_nums. rewrite !Forall_app. intros (A & B & C & D).
  unfold read_snake, write_snake.
  eapply reads_bind; [apply (reads_arr _ re_snax); intros x X; assert (H := flat_ok _ _ A _ X)|].
  { unfold snax_nums in H. rewrite !Forall_cons_iff in H. now apply reads_snax. }
  eapply reads_bind; [apply (reads_arr _ re_cell); intros x X; assert (H := flat_ok _ _ B _ X)|].
  { unfold cell_nums in H. rewrite !Forall_cons_iff in H. now apply reads_cell. }
  eapply reads_bind; [apply (reads_arr _ re_cell); intros x X; assert (H := flat_ok _ _ C _ X)|].
  { unfold cell_nums in H. rewrite !Forall_cons_iff in H. now apply reads_cell. }
  rewrite <- (app_nil_r (write_mesh _)).
  eapply reads_bind; [apply reads_mesh; exact D|]. apply reads_ret.
Qed.

(** The files start with a digit. *)
Lemma skip_wint z l : skip (wint z ++ l) = wint z ++ l.
Proof.
  unfold wint, print_int. destruct (Z.ltb_spec z 0) as [L|L]; [reflexivity|].
  destruct (print_nat_cons L) as (c & r & -> & C). cbn [app]. now apply skip_digit.
Qed.
