(** The rate of the volumes when all snaxels move at once. *)
From Coq Require Import Reals List Lia Lra ZArith.
From Coquelicot Require Import Coquelicot.
From Verif Require Import Base RsvsMath SpecRsvs Calc SpecCalc RsvsProofs RsvsCentreProofs CalcProofs CalcTriProofs CalcChain CalcCentre CalcRateProofs CalcSumProofs CalcHesProofs.
Import ListNotations.
Set Implicit Arguments.
Open Scope R_scope.

(** The edge of the snaxel a point is on; 0 for points that stay. *)
Definition arm (e : tri_env) (p : Z * Z) (k : nat) : R :=
  if Z.eqb (fst p) t_tri then 0 else if Z.eqb (fst p) t_mesh then 0 else end_of e (snd p) k - start_of e (snd p) k.
Lemma place_path e (y : R -> Z -> R) t0 w p k : is_centre e p = false -> is_derive (fun t => y t (snd p)) t0 w ->
  is_derive (fun t => place e (y t) p k) t0 (arm e p k * w).
Proof.
  intros N H. unfold place, arm. unfold is_centre in N. destruct (Z.eqb (fst p) t_tri).
  - cbn [andb] in N. rewrite N. rewrite Rmult_0_l. apply (is_derive_const (tp_coord (tripoint_of e (snd p)) k)).
  - unfold corner_at. destruct (Z.eqb (fst p) t_mesh); [rewrite Rmult_0_l; apply (is_derive_const (mesh_at e (snd p) k))|]. unfold along.
    set (g := fun t => y t (snd p)) in *. change (is_derive (fun t => start_of e (snd p) k + g t * (end_of e (snd p) k - start_of e (snd p) k)) t0 ((end_of e (snd p) k - start_of e (snd p) k) * w)).
    auto_derive; [exists w; exact H|]. replace (Derive (fun x : R => g x) t0) with w by (symmetry; apply is_derive_unique; exact H). ring.
Qed.
Lemma place_at e d d' p k : is_centre e p = false -> d (snd p) = d' (snd p) -> place e d p k = place e d' p k.
Proof.
  intros N E. unfold place. unfold is_centre in N. destruct (Z.eqb (fst p) t_tri); [cbn [andb] in N; rewrite N; reflexivity|].
  unfold corner_at. destruct (Z.eqb (fst p) t_mesh); auto. unfold along. rewrite E. reflexivity.
Qed.
(** The slope of a volume for the point [j], and the rate of the volume when snaxel i moves
    at [w i]. *)
Definition slope3 (e : tri_env) (d : Z -> R) (t : triangle) (j : nat) : R :=
  sum_to 3 (fun k => vol_jac (place e d (nth_pt t 0)) (place e d (nth_pt t 1)) (place e d (nth_pt t 2)) (3 * j + k) * arm e (nth_pt t j) k).
Definition gain (e : tri_env) (d : Z -> R) (w : Z -> R) (t : triangle) : R := sum_to 3 (fun j => slope3 e d t j * w (snd (nth_pt t j))).
Lemma volume_path e d (y : R -> Z -> R) t0 w t : no_centre e t -> (forall i, is_derive (fun u => y u i) t0 (w i)) -> (forall i, y t0 i = d i) ->
  is_derive (fun u => tri_volume e (y u) t) t0 (gain e d w t).
Proof.
  intros N H E.
  pose proof (@vol_diff (place e d (nth_pt t 0)) (place e d (nth_pt t 1)) (place e d (nth_pt t 2))) as D.
  destruct (D (fun u => flat [place e (y u) (nth_pt t 0); place e (y u) (nth_pt t 1); place e (y u) (nth_pt t 2)])
    (flat [fun k => arm e (nth_pt t 0) k * w (snd (nth_pt t 0)); fun k => arm e (nth_pt t 1) k * w (snd (nth_pt t 1)); fun k => arm e (nth_pt t 2) k * w (snd (nth_pt t 2))]) t0) as [_ K].
  - intros s L. each s ltac:(cbn; apply place_path; [apply N; lia|apply H]).
  - intros s L. each s ltac:(cbn; apply place_at; [apply N; lia|apply E]).
  - match type of K with is_derive _ _ ?x => replace (gain e d w t) with x end; [exact K|].
    unfold gain, slope3, sum_to. cbn. ring.
Qed.
Definition flow (e : tri_env) (m : list (Z * Z)) (k : nat) (d w : Z -> R) : R := total (fun t => weight m t k * gain e d w t) (all_tris e).
Lemma total_path A (f : A -> R -> R) (g : A -> R) l t0 : (forall a, In a l -> is_derive (f a) t0 (g a)) -> is_derive (fun u => total (fun a => f a u) l) t0 (total g l).
Proof.
  intros H. induction l as [|a r IH]; [apply (is_derive_const 0)|].
  change (is_derive (fun u => f a u + total (fun a => f a u) r) t0 (g a + total g r)).
  apply (is_derive_plus (f a)); [apply H; left; auto|apply IH; intros; apply H; right; auto].
Qed.
Lemma cell_path e m k d (y : R -> Z -> R) t0 w : (forall t, In t (all_tris e) -> no_centre e t) ->
  (forall i, is_derive (fun u => y u i) t0 (w i)) -> (forall i, y t0 i = d i) ->
  is_derive (fun u => cell_volume e m k (y u)) t0 (flow e m k d w).
Proof.
  intros N H E. unfold cell_volume, flow. apply (total_path (fun t u => weight m t k * tri_volume e (y u) t)).
  intros t I. apply (is_derive_scal (fun u => tri_volume e (y u) t)). apply volume_path; auto.
Qed.
(** The rate is linear in the velocities. *)
Lemma gain_linear e d t n a (w : nat -> Z -> R) : gain e d (fun i => sum_to n (fun q => a q * w q i)) t = sum_to n (fun q => a q * gain e d (w q) t).
Proof.
  unfold gain at 1. rewrite (@sum_to_ext 3 _ (fun j => sum_to n (fun q => slope3 e d t j * (a q * w q (snd (nth_pt t j)))))) by (intros; symmetry; apply sum_to_scale).
  rewrite sum_to_swap. apply sum_to_ext. intros q _. unfold gain. rewrite <- sum_to_scale. apply sum_to_ext. intros; ring.
Qed.
Lemma total_sum A n (f : nat -> A -> R) l : total (fun a => sum_to n (fun q => f q a)) l = sum_to n (fun q => total (f q) l).
Proof.
  induction l as [|a r IH].
  - unfold total at 1. cbn. rewrite (@sum_to_ext n _ (fun _ => 0 * 0)) by (intros; unfold total; cbn; ring). rewrite sum_to_scale. ring.
  - change (total (fun a => sum_to n (fun q => f q a)) (a :: r)) with (sum_to n (fun q => f q a) + total (fun a => sum_to n (fun q => f q a)) r). rewrite IH, <- sum_to_plus. reflexivity.
Qed.
Lemma flow_linear e m k d n a (w : nat -> Z -> R) : flow e m k d (fun i => sum_to n (fun q => a q * w q i)) = sum_to n (fun q => a q * flow e m k d (w q)).
Proof.
  unfold flow. rewrite (total_ext _ (fun t => sum_to n (fun q => a q * (weight m t k * gain e d (w q) t)))).
  - rewrite total_sum. apply sum_to_ext. intros q _. apply total_scale.
  - intros t _. rewrite gain_linear, <- sum_to_scale. apply sum_to_ext. intros; ring.
Qed.
Lemma flow_ext e m k d w w' : (forall i, w i = w' i) -> flow e m k d w = flow e m k d w'.
Proof. intros E. apply total_ext. intros t _. f_equal. apply sum_to_ext. intros j _. rewrite E. reflexivity. Qed.
Definition ind (i j : Z) : R := if Z.eqb j i then 1 else 0.
(** The derivative for one snaxel is the flow when it alone moves. *)
Lemma rate_flow e m k d i x : (forall t, In t (all_tris e) -> no_centre e t) -> rate (cell_volume e m k) d i x -> x = flow e m k d (ind i).
Proof.
  intros N H. unfold rate in H. apply is_derive_Reals in H.
  assert (K : is_derive (fun u => cell_volume e m k (slide d i u)) (d i) (flow e m k d (ind i))).
  { apply cell_path; auto.
    - intros j. unfold slide, ind. destruct (Z.eqb j i); [apply (is_derive_id (d i))|apply (is_derive_const (d j))].
    - intros j. unfold slide. destruct (Z.eqb_spec j i) as [->|]; reflexivity. }
  rewrite <- (is_derive_unique _ _ _ H). apply is_derive_unique. exact K.
Qed.
