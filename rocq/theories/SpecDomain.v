(** Specification of the domain given to tetgen (C112): boxes, their corners and how their
    indices are numbered. *)
From Coq Require Import Reals List ZArith.
From Verif Require Import Base Mesh SpecMesh Geom.
Import ListNotations.
Set Implicit Arguments.
Open Scope R_scope.

(** The eight corners of a box, the first coordinate varying fastest. *)
Definition corners (b : limits) : list (list R) :=
  let '(bx, by_, bz) := b in
  flat_map (fun z => flat_map (fun y => map (fun x => [x; y; z]) [fst bx; snd bx]) [fst by_; snd by_]) [fst bz; snd bz].
Definition each_side (f : R * R -> R * R -> R * R) (a b : limits) : limits :=
  let '(ax, ay, az) := a in let '(bx, by_, bz) := b in (f ax bx, f ay by_, f az bz).
(** A box wider by 1/10 on every side. *)
Definition widened (b : limits) : limits := each_side (fun a _ => (fst a - 1 / 10, snd a + 1 / 10)) b b.
(** The box at the fraction [x] of the way from [a] to [b]. *)
Definition part_way (x : R) (a b : limits) : limits :=
  each_side (fun a b => ((1 - x) * fst a + x * fst b, (1 - x) * snd a + x * snd b)) a b.
(** Box number [k] out of [n]. *)
Definition domain_box (outer inner : limits) (n k : nat) : limits :=
  match k with O => widened inner | _ => part_way (INR k / INR (n - 1)) inner outer end.
(** Every side has a positive length. *)
Definition solid (b : limits) : Prop :=
  let '(bx, by_, bz) := b in fst bx < snd bx /\ fst by_ < snd by_ /\ fst bz < snd bz.
(** [a] lies in [b]. *)
Definition within (a b : limits) : Prop :=
  let '(ax, ay, az) := a in let '(bx, by_, bz) := b in
  (fst bx <= fst ax /\ snd ax <= snd bx) /\ (fst by_ <= fst ay /\ snd ay <= snd by_) /\ (fst bz <= fst az /\ snd az <= snd bz).

(** [m] is made of renumbered copies of [cube]; copy [k] has every index raised by 2^k - 1
    times the number of objects of the kind in [cube]. *)
Definition doubling_copies (cube : mesh) (n : nat) (m : mesh) : Prop :=
  exists parts, length parts = n /\
    volus m = flat_map volus parts /\ surfs m = flat_map surfs parts /\
    edges m = flat_map edges parts /\ verts m = flat_map verts parts /\
    forall k part, nth_error parts k = Some part ->
      let up (c : Z) := (c * (2 ^ Z.of_nat k - 1))%Z in
      shifted (up 8%Z) (up 12%Z) (up 6%Z) (up 1%Z) cube part.
