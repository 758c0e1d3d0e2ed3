(** The box around the points returned by tetgen, C116. *)
From Coq Require Import QArith Lia.
From Verif Require Import Base Containers Mesh Flood CloseProofs Tetgen BoundBox SpecBoundBox.
Set Implicit Arguments.
Open Scope Z_scope.

Definition low (t : tetout Q) n j (b : bound) := n = O /\ b = PInf \/ exists l, b = Fin l /\ least t n j l.
Definition high (t : tetout Q) n j (b : bound) := n = O /\ b = MInf \/ exists l, b = Fin l /\ greatest t n j l.
Lemma low_step t n j b x : low t n j b -> coordinate t n j x -> low t (S n) j (if ble b (Fin x) then b else Fin x).
Proof.
  intros L C. right. destruct L as [[-> ->]|(l & -> & [A B])].
  - exists x. split; [reflexivity|]. split; [exists 0%nat; auto|]. intros i y Hi Hy. assert (i = 0)%nat as -> by lia. unfold coordinate in *. rewrite C in Hy. injection Hy as <-. apply Qle_refl.
  - cbn [ble]. destruct (Qle_bool l x) eqn:E.
    + apply Qle_bool_iff in E. exists l. split; [reflexivity|]. split; [destruct A as (i & A & G); exists i; split; [lia|exact G]|].
      intros i y Hi Hy. destruct (Nat.eq_dec i n) as [->|N]; [|apply (B i); [lia|exact Hy]]. unfold coordinate in *. rewrite C in Hy. injection Hy as <-. exact E.
    + assert (x <= l)%Q. { destruct (Qlt_le_dec l x) as [F|F]; [|exact F]. apply Qlt_le_weak, Qle_bool_iff in F. congruence. }
      exists x. split; [reflexivity|]. split; [exists n; split; [lia|exact C]|].
      intros i y Hi Hy. destruct (Nat.eq_dec i n) as [->|N]; [|apply Qle_trans with l; [assumption|apply (B i); [lia|exact Hy]]]. unfold coordinate in *. rewrite C in Hy. injection Hy as <-. apply Qle_refl.
Qed.
Lemma high_step t n j b x : high t n j b -> coordinate t n j x -> high t (S n) j (if ble (Fin x) b then b else Fin x).
Proof.
  intros L C. right. destruct L as [[-> ->]|(l & -> & [A B])].
  - exists x. split; [reflexivity|]. split; [exists 0%nat; auto|]. intros i y Hi Hy. assert (i = 0)%nat as -> by lia. unfold coordinate in *. rewrite C in Hy. injection Hy as <-. apply Qle_refl.
  - cbn [ble]. destruct (Qle_bool x l) eqn:E.
    + apply Qle_bool_iff in E. exists l. split; [reflexivity|]. split; [destruct A as (i & A & G); exists i; split; [lia|exact G]|].
      intros i y Hi Hy. destruct (Nat.eq_dec i n) as [->|N]; [|apply (B i); [lia|exact Hy]]. unfold coordinate in *. rewrite C in Hy. injection Hy as <-. exact E.
    + assert (l <= x)%Q. { destruct (Qlt_le_dec x l) as [F|F]; [|exact F]. apply Qlt_le_weak, Qle_bool_iff in F. congruence. }
      exists x. split; [reflexivity|]. split; [exists n; split; [lia|exact C]|].
      intros i y Hi Hy. destruct (Nat.eq_dec i n) as [->|N]; [|apply Qle_trans with l; [apply (B i); [lia|exact Hy]|assumption]]. unfold coordinate in *. rewrite C in Hy. injection Hy as <-. apply Qle_refl.
Qed.
Lemma upto_snoc n : forall k, upto (S n) k = upto n k ++ [k + Z.of_nat n].
Proof.
  induction n as [|n IH]; intros k; [cbn; f_equal; lia|]. change (upto (S (S n)) k) with (k :: upto (S n) (k + 1)). rewrite IH. cbn [upto app]. do 2 f_equal. f_equal. lia.
Qed.
Lemma at_coordinate t n j x : coordinate t n j x -> at_ (pointlist t) (Z.of_nat n * 3 + Z.of_nat j) = Ok x.
Proof. intros C. apply at_Ok. split; [lia|]. rewrite <- C. f_equal. lia. Qed.
Lemma box_upto t n : (n * 3 <= length (pointlist t))%nat -> exists a b c d e f,
  for_each (upto n 0) (box_point t) ([PInf; PInf; PInf], [MInf; MInf; MInf]) = Ok ([a; b; c], [d; e; f]) /\
  low t n 0 a /\ low t n 1 b /\ low t n 2 c /\ high t n 0 d /\ high t n 1 e /\ high t n 2 f.
Proof.
  induction n as [|n IH]; intros L.
  - exists PInf, PInf, PInf, MInf, MInf, MInf. split; [reflexivity|]. repeat split; left; auto.
  - destruct IH as (a & b & c & d & e & f & Q & A & B & C & D & E & F); [lia|].
    assert (P : forall j, (j < 3)%nat -> exists x, coordinate t n j x).
    { intros j Hj. unfold coordinate. destruct (nth_error (pointlist t) (n * 3 + j)) eqn:X; [eauto|]. apply nth_error_None in X. lia. }
    destruct (P 0%nat) as [x X]; [lia|]. destruct (P 1%nat) as [y Y]; [lia|]. destruct (P 2%nat) as [z Z]; [lia|].
    rewrite upto_snoc, for_each_app, Q. cbn [bind for_each Z.add]. unfold box_point. cbn [upto for_each].
    assert (X' := at_coordinate X). assert (Y' := at_coordinate Y). assert (Z' := at_coordinate Z).
    change (0 + 1) with 1. change (1 + 1) with 2. change (Z.of_nat 0) with 0 in X'. change (Z.of_nat 1) with 1 in Y'. change (Z.of_nat 2) with 2 in Z'.
    unfold box_coord. rewrite X'. cbn [bind at_ Z.ltb Z.compare Z.to_nat nth_error upd]. rewrite Y'. cbn. rewrite Z'. cbn.
    do 6 eexists. split; [reflexivity|].
    repeat split; first [apply low_step|apply high_step]; assumption.
Qed.
(** The two corners are the least and the greatest of each coordinate over all points. *)
Theorem C116_box t : (numberofpoints t * 3 <= length (pointlist t))%nat -> numberofpoints t <> O ->
  exists lo hi, get_bound_box t = Ok (map Fin lo, map Fin hi) /\ length lo = 3%nat /\ length hi = 3%nat /\
    (forall j l, nth_error lo j = Some l -> least t (numberofpoints t) j l) /\
    (forall j h, nth_error hi j = Some h -> greatest t (numberofpoints t) j h).
Proof.
  intros L N. destruct (@box_upto t (numberofpoints t) L) as (a & b & c & d & e & f & Q & A & B & C & D & E & F).
  destruct A as [[A _]|(a' & -> & A)]; [contradiction|]. destruct B as [[B _]|(b' & -> & B)]; [contradiction|]. destruct C as [[C _]|(c' & -> & C)]; [contradiction|].
  destruct D as [[D _]|(d' & -> & D)]; [contradiction|]. destruct E as [[E _]|(e' & -> & E)]; [contradiction|]. destruct F as [[F _]|(f' & -> & F)]; [contradiction|].
  exists [a'; b'; c'], [d'; e'; f']. split; [exact Q|]. split; [reflexivity|]. split; [reflexivity|].
  split; intros [|[|[|j]]] x X; cbn in X; try (injection X as <-; assumption); destruct j; discriminate X.
Qed.
Print Assumptions C116_box.
(** Three points, and the case without points, in which the corners are left at the infinities. *)
Definition three_points (n : nat) : tetout Q := mkTetout 0 n 0 0 0 4 [1#2; 3; -1; -2; 3; 7; 5; 1#3; 0]%Q [] [] [] [] [] None.
Definition three_low : list Q := [-2; 1#3; -1]%Q.
Definition three_high : list Q := [5; 3; 7]%Q.
Example C116_case : (numberofpoints (three_points 3) * 3 <= length (pointlist (three_points 3)))%nat /\ numberofpoints (three_points 3) <> O /\
  get_bound_box (three_points 3) = Ok (map Fin three_low, map Fin three_high) /\
  get_bound_box (three_points 0) = Ok ([PInf; PInf; PInf], [MInf; MInf; MInf]).
Proof. split; [cbn; lia|]. split; [discriminate|]. split; reflexivity. Qed.
