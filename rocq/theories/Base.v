(** Shared vocabulary of the model: outcomes of a C++ call, hash tables as
    lists of pairs, and small list facts. *)
From Coq Require Export List Arith ZArith Lia Bool Permutation Sorted.
From Coq Require Export ZifyBool ZifyNat.
Export ListNotations.
Set Implicit Arguments.

(** Outcome of running a piece of C++: a value, a thrown exception, undefined
    behaviour (out-of-range read, end-iterator dereference, ...), or
    exhaustion of the fuel given to a loop. *)
Inductive outcome (A : Type) : Type :=
| Ok (a : A)
| Throw
| UB
| OutOfFuel.
Arguments Ok {A} a.
Arguments Throw {A}.
Arguments UB {A}.
Arguments OutOfFuel {A}.

Definition bind {A B} (x : outcome A) (f : A -> outcome B) : outcome B :=
  match x with
  | Ok a => f a
  | Throw => Throw
  | UB => UB
  | OutOfFuel => OutOfFuel
  end.

Notation "'do' x <- e ; k" := (bind e (fun x => k))
  (at level 60, x pattern, e at level 59, k at level 60, right associativity).

(** Subscripting a [std::vector] with an [int]: anything outside
    [0, size) is undefined behaviour. *)
Definition at_ {A} (l : list A) (p : Z) : outcome A :=
  if (p <? 0)%Z then UB
  else match nth_error l (Z.to_nat p) with
       | Some a => Ok a
       | None => UB
       end.

(** Positions of a list satisfying a predicate, in increasing order. *)
Fixpoint positions_from {A} (f : A -> bool) (l : list A) (n : nat) : list nat :=
  match l with
  | [] => []
  | a :: r => if f a then n :: positions_from f r (S n)
              else positions_from f r (S n)
  end.
Definition positions {A} (f : A -> bool) (l : list A) : list nat :=
  positions_from f l 0.

(** Replace the element at a position (no effect out of range; callers test
    the range first and return [UB] outside). *)
Fixpoint upd {A} (l : list A) (n : nat) (a : A) : list A :=
  match l, n with
  | [], _ => []
  | _ :: r, O => a :: r
  | x :: r, S n' => x :: upd r n' a
  end.

Definition mem_z (k : Z) (l : list Z) : bool := existsb (Z.eqb k) l.

(** ** Facts *)

Lemma at_Ok A (l : list A) p a :
  at_ l p = Ok a <-> (0 <= p)%Z /\ nth_error l (Z.to_nat p) = Some a.
Proof.
  unfold at_. destruct (Z.ltb_spec p 0) as [Hlt|Hge].
  - split; [discriminate | lia].
  - destruct (nth_error l (Z.to_nat p)) as [b|].
    + split; [intros [= ->]; auto | intros [_ [= ->]]; reflexivity].
    + split; [discriminate | intros [_ [=]]].
Qed.

Lemma at_UB_iff A (l : list A) p :
  at_ l p = UB <-> (p < 0 \/ Z.of_nat (length l) <= p)%Z.
Proof.
  unfold at_. destruct (Z.ltb_spec p 0) as [Hlt|Hge].
  - split; auto.
  - destruct (nth_error l (Z.to_nat p)) as [b|] eqn:Hn.
    + split; [discriminate|].
      assert (Z.to_nat p < length l)%nat by (apply nth_error_Some; congruence). lia.
    + apply nth_error_None in Hn. split; auto. intros _. right. lia.
Qed.

Lemma at_in_range A (l : list A) p :
  (0 <= p < Z.of_nat (length l))%Z -> exists a, at_ l p = Ok a.
Proof.
  intros Hp. unfold at_. destruct (Z.ltb_spec p 0); [lia|].
  destruct (nth_error l (Z.to_nat p)) as [a|] eqn:Hn; [eauto|].
  apply nth_error_None in Hn. lia.
Qed.

Lemma mem_z_In k l : mem_z k l = true <-> In k l.
Proof.
  unfold mem_z. rewrite existsb_exists. split.
  - intros [x [Hx Heq]]. apply Z.eqb_eq in Heq. subst; auto.
  - intros H. exists k. split; auto. apply Z.eqb_refl.
Qed.

Lemma mem_z_not_In k l : mem_z k l = false <-> ~ In k l.
Proof. rewrite <- mem_z_In. destruct (mem_z k l); split; congruence || tauto. Qed.

Lemma upd_length A (l : list A) n a : length (upd l n a) = length l.
Proof. revert n; induction l as [|x r IH]; intros [|n]; simpl; auto. Qed.

Lemma nth_error_upd A (l : list A) n m a :
  nth_error (upd l n a) m =
  if Nat.eqb n m then (if Nat.ltb n (length l) then Some a else None)
  else nth_error l m.
Proof.
  revert n m; induction l as [|x r IH]; intros n m.
  - simpl. destruct n, m; simpl; auto. destruct (Nat.eqb n m); auto.
  - destruct n as [|n], m as [|m]; try reflexivity.
    change (nth_error (upd r n a) m =
      if Nat.eqb n m then (if Nat.ltb n (length r) then Some a else None)
      else nth_error r m).
    apply IH.
Qed.

Lemma nth_error_upd_same A (l : list A) n a :
  (n < length l)%nat -> nth_error (upd l n a) n = Some a.
Proof.
  intros H. rewrite nth_error_upd, Nat.eqb_refl.
  destruct (Nat.ltb_spec n (length l)); auto; lia.
Qed.

Lemma nth_error_upd_other A (l : list A) n m a :
  n <> m -> nth_error (upd l n a) m = nth_error l m.
Proof.
  intros H. rewrite nth_error_upd. destruct (Nat.eqb_spec n m); congruence.
Qed.

Lemma map_upd A B (f : A -> B) (l : list A) n a :
  map f (upd l n a) = upd (map f l) n (f a).
Proof. revert n; induction l as [|x r IH]; intros [|n]; simpl; congruence. Qed.

Lemma positions_from_spec A (f : A -> bool) l n p :
  In p (positions_from f l n) <->
  (n <= p)%nat /\ exists a, nth_error l (p - n) = Some a /\ f a = true.
Proof.
  revert n; induction l as [|x r IH]; intros n; simpl.
  - split; [tauto|]. intros [_ [a [H _]]]. destruct (p - n)%nat; discriminate.
  - assert (Hstep : In p (positions_from f r (S n)) <->
              (S n <= p)%nat /\ exists a, nth_error (x :: r) (p - n) = Some a /\ f a = true).
    { rewrite IH. split; intros [Hle H]; (split; [exact Hle|]).
      - replace (p - n)%nat with (S (p - S n))%nat by lia. exact H.
      - replace (p - n)%nat with (S (p - S n))%nat in H by lia. exact H. }
    destruct (f x) eqn:Hx.
    + simpl. rewrite Hstep. split.
      * intros [->|[Hle H]]; [split; auto|split; [lia|exact H]].
        exists x. rewrite Nat.sub_diag. auto.
      * intros [Hle H]. destruct (Nat.eq_dec n p) as [->|Hne]; [auto|].
        right. split; [lia|exact H].
    + rewrite Hstep. split.
      * intros [Hle H]; split; [lia|exact H].
      * intros [Hle H]. split; [|exact H].
        destruct (Nat.eq_dec n p) as [->|Hne]; [|lia].
        destruct H as [a [Ha Hfa]]. rewrite Nat.sub_diag in Ha. simpl in Ha. congruence.
Qed.

Lemma positions_spec A (f : A -> bool) l p :
  In p (positions f l) <-> exists a, nth_error l p = Some a /\ f a = true.
Proof.
  unfold positions. rewrite positions_from_spec, Nat.sub_0_r. split.
  - intros [_ H]; exact H.
  - intros H; split; [lia|exact H].
Qed.

Lemma positions_from_ge A (f : A -> bool) l n p :
  In p (positions_from f l n) -> (n <= p)%nat.
Proof. rewrite positions_from_spec. tauto. Qed.

Lemma positions_from_NoDup A (f : A -> bool) l n : NoDup (positions_from f l n).
Proof.
  revert n; induction l as [|x r IH]; intros n; simpl; [constructor|].
  destruct (f x); [|apply IH]. constructor; [|apply IH].
  intros H. apply positions_from_ge in H. lia.
Qed.

Lemma positions_NoDup A (f : A -> bool) l : NoDup (positions f l).
Proof. apply positions_from_NoDup. Qed.

Lemma positions_from_app A (f : A -> bool) l1 l2 n :
  positions_from f (l1 ++ l2) n =
  positions_from f l1 n ++ positions_from f l2 (n + length l1).
Proof.
  revert n; induction l1 as [|x r IH]; intros n; simpl.
  - rewrite Nat.add_0_r. reflexivity.
  - rewrite IH. replace (n + S (length r))%nat with (S n + length r)%nat by lia.
    destruct (f x); reflexivity.
Qed.
