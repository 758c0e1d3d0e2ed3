(** Lemmas about the history of an object that computes a value with its derivatives. *)
From Coq Require Import Reals List Lia Lra Permutation.
From Coquelicot Require Import Coquelicot.
From Verif Require Import Base RsvsMath SpecRsvs RsvsProofs.
Set Implicit Arguments.
Open Scope R_scope.

Lemma run_app k ops ops' st : run k st (ops ++ ops') = bind (run k st ops) (fun st' => run k st' ops').
Proof.
  revert st. induction ops as [|o r IH]; intros st; cbn [run app]; auto.
  destruct (step k st o); cbn [bind]; auto.
Qed.

Lemma read_points_Ok l ps : read_points l = Ok ps -> l = map Some ps.
Proof.
  revert ps. induction l as [|[v|] r IH]; intros ps H; cbn in H; try discriminate.
  - injection H as <-. reflexivity.
  - destruct (read_points r) eqn:E; try discriminate. cbn in H. injection H as <-. cbn. f_equal. apply IH. reflexivity.
Qed.
Lemma read_points_map ps : read_points (map Some ps) = Ok ps.
Proof. induction ps as [|p r IH]; cbn; auto. rewrite IH. reflexivity. Qed.

Lemma calc_inv s k f f' : calc s k f = Ok f' -> exists ps v j h,
  f_pts f = map Some ps /\ evaluate s k ps = Ok (v, j, h) /\
  f' = mkFunc (map Some ps) v (put_all j (f_jac f)) (put_all h (f_hes f)).
Proof.
  unfold calc. destruct (read_points (f_pts f)) as [ps| | |] eqn:E; cbn [bind]; try discriminate.
  destruct (evaluate s k ps) as [[[v j] h]| | |] eqn:Ev; cbn [bind]; try discriminate. intros H. injection H as <-.
  apply read_points_Ok in E. exists ps, v, j, h. rewrite <- E. auto.
Qed.

Lemma calc_fd_inv s f f' : calc_fd s f = Ok f' -> exists f1 ps ws,
  calc s KVolume f = Ok f1 /\ f_pts f1 = map Some ps /\
  omap_all (fun ij : nat * nat => let (i, j) := ij in
      do r <- evaluate s KVolume (shift_point ps i j fd_step) ;
      Ok (0%nat, (i * 3 + j)%nat, (fst (fst r) - f_fun f1) / fd_step)) (list_prod (seq 0 3) (seq 0 3)) = Ok ws /\
  f' = mkFunc (map Some ps) (f_fun f1) (put_all ws (f_jac f1)) (f_hes f1).
Proof.
  unfold calc_fd. destruct (calc s KVolume f) as [f1| | |] eqn:E1; cbn [bind]; try discriminate.
  destruct (read_points (f_pts f1)) as [ps| | |] eqn:E2; cbn [bind]; try discriminate.
  match goal with |- bind ?o _ = _ -> _ => destruct o as [ws| | |] eqn:E3; cbn [bind]; try discriminate end.
  intros H. injection H as <-. apply read_points_Ok in E2. exists f1, ps, ws. rewrite <- E2. auto.
Qed.

(** A property of the Hessian kept by the assignments holds after every history. *)
Lemma run_hes k (P : mat -> Prop) :
  P zero_mat ->
  (forall s ps v j h m, evaluate s k ps = Ok (v, j, h) -> P m -> P (put_all h m)) ->
  forall ops s0 s f, run k (s0, func0 k) ops = Ok (s, f) -> P (f_hes f).
Proof.
  intros P0 PS. assert (G : forall ops s0 f0 s f, P (f_hes f0) -> run k (s0, f0) ops = Ok (s, f) -> P (f_hes f)).
  { induction ops as [|o r IH]; intros s0 f0 s f H0 H; cbn [run] in H; [injection H as <- <-; auto|].
    destruct (step k (s0, f0) o) as [[s1 f1]| | |] eqn:E; cbn [bind] in H; try discriminate.
    apply IH in H; auto. clear H IH. destruct o as [l|i v| | |c]; cbn [step] in E.
    - destruct (Nat.eqb (length l) (npoints k)); [|discriminate]. injection E as <- <-; auto.
    - destruct (Nat.ltb i (npoints k)); [injection E as <- <-; auto|]. destruct (is_tri k); [injection E as <- <-; auto|discriminate].
    - destruct (calc s0 k f0) as [f'| | |] eqn:C; cbn [bind] in E; try discriminate. injection E as <- <-.
      destruct (@calc_inv _ _ _ _ C) as (ps & v & j & h & _ & Ev & ->). cbn. eauto.
    - destruct k; try discriminate.
      destruct (calc_fd s0 f0) as [f'| | |] eqn:C; cbn [bind] in E; try discriminate. injection E as <- <-.
      destruct (@calc_fd_inv _ _ _ C) as (f1' & ps & ws & C1 & _ & _ & ->). cbn.
      destruct (@calc_inv _ _ _ _ C1) as (ps' & v & j & h & _ & Ev & ->). cbn. eauto.
    - injection E as <- <-; auto. }
  intros ops s0 s f. apply G. exact P0.
Qed.

Local Arguments skipn : simpl never.
Local Arguments firstn : simpl never.

Lemma step_pts k s0 f0 o s f : length (f_pts f0) = npoints k -> step k (s0, f0) o = Ok (s, f) ->
  length (f_pts f) = npoints k /\ surf_m s = surf_eps_step (surf_m s0) o /\
  (forall i old, (i < npoints k)%nat -> nth_error (f_pts f0) i = Some old -> nth_error (f_pts f) i = Some (latest_step i old o)).
Proof.
  intros L E. destruct o as [l|i v| | |c]; cbn [step] in E.
  - destruct (Nat.eqb_spec (length l) (npoints k)) as [El|]; [|discriminate]. injection E as <- <-. cbn [f_pts surf_eps_step latest_step].
    rewrite map_length. repeat split; auto. intros i old Hi _.
    rewrite nth_error_map. destruct (nth_error l i) eqn:En; auto. apply nth_error_None in En. lia.
  - destruct (Nat.ltb_spec i (npoints k)) as [Hi|Hi].
    + injection E as <- <-. cbn [f_pts surf_eps_step latest_step]. split; [|split; auto].
      * pose proof (skipn_length (S i) (f_pts f0)) as Hk. rewrite app_length, firstn_length. change (length (Some v :: skipn (S i) (f_pts f0))) with (S (length (skipn (S i) (f_pts f0)))). lia.
      * intros a old Ha Hold. destruct (Nat.eqb_spec i a) as [->|Ne].
        -- rewrite nth_error_app2; rewrite firstn_length; [|lia]. replace (a - Nat.min a (length (f_pts f0)))%nat with 0%nat by lia. reflexivity.
        -- assert (D : (a < i \/ i < a)%nat) by lia. destruct D as [D|D].
           ++ rewrite nth_error_app1 by (rewrite firstn_length; lia). rewrite <- Hold.
              rewrite <- (firstn_skipn i (f_pts f0)) at 2. rewrite nth_error_app1; auto. rewrite firstn_length; lia.
           ++ rewrite nth_error_app2; rewrite firstn_length; [|lia].
              replace (a - Nat.min i (length (f_pts f0)))%nat with (S (a - S i))%nat by lia. cbn [nth_error].
              rewrite <- Hold. rewrite <- (firstn_skipn (S i) (f_pts f0)) at 2.
              rewrite nth_error_app2; rewrite firstn_length; [|lia]. f_equal. lia.
    + destruct (is_tri k); [|discriminate]. injection E as <- <-. split; auto. split; auto. intros a old Ha Hold. cbn [latest_step].
      destruct (Nat.eqb_spec i a); [lia|]. auto.
  - destruct (calc s0 k f0) as [f'| | |] eqn:C; cbn [bind] in E; try discriminate. injection E as <- <-.
    destruct (@calc_inv _ _ _ _ C) as (ps & v & j & h & Ep & Ev & ->). cbn [f_pts latest_step]. rewrite <- Ep. auto.
  - destruct k; try discriminate.
    destruct (calc_fd s0 f0) as [f'| | |] eqn:C; cbn [bind] in E; try discriminate. injection E as <- <-.
    destruct (@calc_fd_inv _ _ _ C) as (f1' & ps & ws & C1 & Ep1 & _ & ->). cbn [f_pts latest_step].
    destruct (@calc_inv _ _ _ _ C1) as (ps' & v & j & h & Ep & Ev & ->). cbn [f_pts] in Ep1. rewrite <- Ep1, <- Ep. auto.
  - injection E as <- <-. auto.
Qed.

Lemma run_pts k ops s0 s f : run k (s0, func0 k) ops = Ok (s, f) ->
  length (f_pts f) = npoints k /\ surf_m s = surf_eps s0 ops /\
  (forall i, (i < npoints k)%nat -> nth_error (f_pts f) i = Some (latest i ops)).
Proof.
  assert (G : forall ops s0 f0, length (f_pts f0) = npoints k -> run k (s0, f0) ops = Ok (s, f) ->
    length (f_pts f) = npoints k /\ surf_m s = fold_left surf_eps_step ops (surf_m s0) /\
    (forall i old, (i < npoints k)%nat -> nth_error (f_pts f0) i = Some old ->
       nth_error (f_pts f) i = Some (fold_left (latest_step i) ops old))).
  { clear ops s0. induction ops as [|o r IH]; intros s0 f0 L H; cbn [run] in H; [injection H as <- <-; cbn; auto|].
    destruct (step k (s0, f0) o) as [[s1 f1]| | |] eqn:E; cbn [bind] in H; try discriminate.
    destruct (@step_pts _ _ _ _ _ _ L E) as (L1 & S1 & N1).
    destruct (IH _ _ L1 H) as (L2 & S2 & N2). cbn [fold_left]. rewrite <- S1. repeat split; auto. }
  intros H. assert (L0 : length (f_pts (func0 k)) = npoints k) by (cbn; apply repeat_length).
  destruct (G _ _ _ L0 H) as (A & B & C). repeat split; auto. intros i Hi. apply C; auto.
  cbn [func0 f_pts]. destruct (nth_error (repeat None (npoints k)) i) as [o|] eqn:En.
  - apply nth_error_In, repeat_spec in En. subst. reflexivity.
  - apply nth_error_None in En. rewrite repeat_length in En. lia.
Qed.

(** What the last call of Calc computes. *)
Lemma run_calc k ops s0 s f : run k (s0, func0 k) (ops ++ [Calc]) = Ok (s, f) -> exists f1 ps v j h,
  run k (s0, func0 k) ops = Ok (s, f1) /\ length ps = npoints k /\
  (forall i, (i < npoints k)%nat -> nth_error ps i = latest i ops) /\ surf_m s = surf_eps s0 ops /\
  evaluate s k ps = Ok (v, j, h) /\ f = mkFunc (map Some ps) v (put_all j (f_jac f1)) (put_all h (f_hes f1)).
Proof.
  rewrite run_app. intros H. destruct (run k (s0, func0 k) ops) as [[s1 f1]| | |] eqn:E1; cbn [bind] in H; try discriminate.
  cbn [run step] in H. destruct (calc s1 k f1) as [f'| | |] eqn:C; cbn [bind] in H; try discriminate. injection H as <- <-.
  destruct (@calc_inv _ _ _ _ C) as (ps & v & j & h & Ep & Ev & ->).
  destruct (@run_pts _ _ _ _ _ E1) as (L & Se & N).
  exists f1, ps, v, j, h. rewrite Ep, map_length in L. repeat split; auto. intros i Hi. specialize (N i Hi).
  rewrite Ep, nth_error_map in N. destruct (nth_error ps i); cbn in N; [injection N as <-; auto|discriminate].
Qed.

(** Calc is defined as soon as all points are given. *)
Lemma run_calc_defined k ops s0 s f : run k (s0, func0 k) ops = Ok (s, f) ->
  (forall i, (i < npoints k)%nat -> latest i ops <> None) ->
  exists s' f', run k (s0, func0 k) (ops ++ [Calc]) = Ok (s', f').
Proof.
  intros H A. destruct (@run_pts _ _ _ _ _ H) as (L & _ & N).
  assert (exists ps, f_pts f = map Some ps) as [ps Ep].
  { assert (K : forall i o, nth_error (f_pts f) i = Some o -> o <> None).
    { intros i o Ho. assert (Hi : (i < npoints k)%nat) by (rewrite <- L; apply nth_error_Some; rewrite Ho; discriminate).
      rewrite N in Ho by auto. injection Ho as <-. auto. }
    clear - K. induction (f_pts f) as [|[v|] r IH].
    - exists []. reflexivity.
    - destruct IH as [ps E]; [intros i o Ho; apply (K (S i) o Ho)|]. exists (v :: ps). cbn. rewrite E. reflexivity.
    - exfalso. apply (K 0%nat None); reflexivity. }
  rewrite run_app, H. cbn [bind run step]. unfold calc. rewrite Ep, read_points_map. cbn [bind].
  rewrite Ep, map_length in L.
  assert (exists v j h, evaluate s k ps = Ok (v, j, h)) as (v & j & h & Ev).
  { destruct k; cbn [npoints] in L;
      repeat (destruct ps as [|? ps]; cbn [length] in L; try discriminate); cbn [evaluate]; eauto. }
  rewrite Ev. cbn [bind]. eauto.
Qed.

(** *** The sum over a closed surface *)
Lemma sum_perm (l l' : list R) : Permutation l l' -> fold_right Rplus 0 l = fold_right Rplus 0 l'.
Proof. induction 1; cbn; lra. Qed.
Lemma sum_app (l l' : list R) : fold_right Rplus 0 (l ++ l') = fold_right Rplus 0 l + fold_right Rplus 0 l'.
Proof. induction l; cbn; lra. Qed.

Lemma antisym_zero (A : Type) (g : A * A -> R) (l : list (A * A)) : (forall a b, g (b, a) = - g (a, b)) ->
  Permutation (map (fun e => (snd e, fst e)) l) l -> fold_right Rplus 0 (map g l) = 0.
Proof.
  intros G P. apply (Permutation_map g) in P. apply sum_perm in P. rewrite map_map in P.
  assert (E : fold_right Rplus 0 (map (fun x => g (snd x, fst x)) l) = - fold_right Rplus 0 (map g l)).
  { clear P. induction l as [|[a b] r IH]; cbn [map fold_right fst snd]; [lra|]. rewrite IH, G. lra. }
  rewrite E in P. lra.
Qed.
Lemma flat_sum (A B : Type) (g : B -> R) (h : A -> list B) l :
  fold_right Rplus 0 (map g (flat_map h l)) = fold_right Rplus 0 (map (fun a => fold_right Rplus 0 (map g (h a))) l).
Proof. induction l as [|a r IH]; cbn [flat_map map fold_right]; auto. rewrite map_app, sum_app, IH. reflexivity. Qed.

Lemma closed_translate (P : Type) (pos : P -> vec) (l : list (P * P * P)) t : closed_surface l ->
  fold_right Rplus 0 (map (fun f => let '(a, b, c) := f in signed_volume (translate t (pos a)) (translate t (pos b)) (translate t (pos c))) l)
  = fold_right Rplus 0 (map (fun f => let '(a, b, c) := f in signed_volume (pos a) (pos b) (pos c)) l).
Proof.
  intros C. pose (g := fun e : P * P => - det t (pos (fst e)) (pos (snd e)) / 6).
  assert (Z : fold_right Rplus 0 (map (fun f => fold_right Rplus 0 (map g (tri_edges f))) l) = 0).
  { rewrite <- flat_sum. apply antisym_zero; auto. intros a b. unfold g, det. cbn [fst snd]. field. }
  assert (G : fold_right Rplus 0 (map (fun f => let '(a, b, c) := f in signed_volume (translate t (pos a)) (translate t (pos b)) (translate t (pos c))) l)
    = fold_right Rplus 0 (map (fun f => let '(a, b, c) := f in signed_volume (pos a) (pos b) (pos c)) l)
      + fold_right Rplus 0 (map (fun f => fold_right Rplus 0 (map g (tri_edges f))) l)).
  { clear Z C. induction l as [|[[a b] c] r IH]; cbn [map fold_right]; [lra|]. rewrite IH.
    unfold g, tri_edges. cbn [map fold_right fst snd]. unfold signed_volume, det, translate. field. }
  rewrite G, Z. ring.
Qed.
