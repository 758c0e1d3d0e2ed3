(** Small specifications used by the container theorems.  They mention plain
    lists only; nothing here depends on how the containers work. *)
From Verif Require Import Base Containers.
Set Implicit Arguments.
Open Scope Z_scope.

(** What the templates need from an element class, with the laws every element
    class of the code base satisfies: assigning the index sets it; preparing an
    element keeps its index and its parent; renumbering keeps the parent
    (mesh.hpp, snake.hpp, triangulate.hpp element classes). *)
Record elem_class := {
  carrier :> Type;
  e_index : carrier -> Z;
  e_set : Z -> carrier -> carrier;
  e_parent : carrier -> Z;
  e_prep : carrier -> carrier;
  e_ready : bool -> carrier -> bool;
  e_change : Z -> Z -> Z -> Z -> carrier -> carrier;
  e_default : carrier;
  e_set_index : forall z e, e_index (e_set z e) = z;
  e_prep_index : forall e, e_index (e_prep e) = e_index e;
  e_prep_parent : forall e, e_parent (e_prep e) = e_parent e;
  e_set_parent : forall z e, e_parent (e_set z e) = e_parent e;
  e_change_parent : forall a b c d e, e_parent (e_change a b c d e) = e_parent e }.

Definition run_on (E : elem_class) :=
  run (@e_index E) (@e_set E) (@e_prep E) (@e_change E) (@e_default E).
Definition prepare_on (E : elem_class) := prepare (@e_index E) (@e_prep E).
Definition srun_on (E : elem_class) :=
  srun (@e_index E) (@e_set E) (@e_parent E) (@e_prep E) (@e_change E) (@e_default E).
Definition sprepare_on (E : elem_class) := sprepare (@e_index E) (@e_parent E) (@e_prep E).

(** [r] is a correct answer to "where is key k in l": -1 exactly when no
    element has the key, otherwise an in-range position holding the key. *)
Definition lookup_exact {T} (key : T -> Z) (l : list T) (k r : Z) : Prop :=
  (r = -1 <-> ~ exists e, In e l /\ key e = k) /\
  (r <> -1 -> exists e, at_ l r = Ok e /\ key e = k).

(** [m] is the maximum of 0 and the keys. *)
Definition is_max {T} (key : T -> Z) (l : list T) (m : Z) : Prop :=
  (forall e, In e l -> key e <= m) /\
  (m = 0 \/ exists e, In e l /\ key e = m).

(** [ps] lists, once each, the positions of [l] whose key is [k]. *)
Definition positions_exact {T} (key : T -> Z) (l : list T) (k : Z) (ps : list nat) : Prop :=
  NoDup ps /\
  forall p, In p ps <-> exists e, nth_error l p = Some e /\ key e = k.

(** The container as a plain vector: what each operation does to the sequence
    of elements, with no tables and no flags. *)
Definition plain_step (E : elem_class) (l : list E) (o : op E) : outcome (list E) :=
  match o with
  | OPush e => Ok (l ++ [e])
  | OEdit a f => do e <- at_ l a; Ok (firstn (Z.to_nat a) l ++ f e :: skipn (S (Z.to_nat a)) l)
  | ORemove d => Ok (filter (fun e => if in_dec Z.eq_dec (e_index E e) d then false else true) l)
  | OConcat l' => Ok (l ++ l')
  | OPopulate => Ok (map (fun '(e, i) => e_set E (Z.of_nat i) e) (combine l (seq 1 (length l))))
  | OChange a b c d => Ok (map (e_change E a b c d) l)
  | OAssign n e => Ok (repeat e n)
  | OClear => Ok []
  | OInit n => Ok (repeat (e_default E) n)
  | ORead _ l' => Ok l'
  | OPrepare => Ok (map (e_prep E) l)
  | OHash | OSetMax => Ok l
  end.
Fixpoint plain_run (E : elem_class) (ops : list (op E)) (l : list E) : outcome (list E) :=
  match ops with
  | [] => Ok l
  | o :: r => do l1 <- plain_step E l o; plain_run E r l1
  end.

(** An element class for the examples: an index and a parent. *)
Definition pair_class : elem_class :=
  {| carrier := Z * Z;
     e_index := fst; e_set := fun z e => (z, snd e); e_parent := snd;
     e_prep := fun e => e; e_ready := fun _ _ => true;
     e_change := fun nv _ _ _ e => (fst e + nv, snd e);
     e_default := (0, 0);
     e_set_index := fun z e => eq_refl; e_prep_index := fun e => eq_refl;
     e_prep_parent := fun e => eq_refl; e_set_parent := fun z e => eq_refl;
     e_change_parent := fun a b c d e => eq_refl |}.

Definition omap {A B} (f : A -> B) (o : outcome A) : outcome B := do a <- o; Ok (f a).

(** Classification of operations, used as side conditions of the partial
    theorems. *)
Definition is_remove {T} (o : op T) : bool := match o with ORemove _ => true | _ => false end.

(** The three operations a parent-keyed container inherits without updating
    its parent table are excluded. *)
Definition keeps_parent {T} (o : op T) : bool :=
  match o with
  | OAssign _ _ | OInit _ | ORead _ _ => false
  | _ => true
  end.

(** Operations that keep a hashed vector's table current. *)
Definition hv_keeps (o : hop) : bool :=
  match o with HPush _ | HClear | HGenerate => true | _ => false end.

(** Iteration order of an unordered_multimap: equal keys are contiguous (a
    guarantee of the C++ standard). *)
Inductive grouped : htable -> Prop :=
| grouped_nil : grouped []
| grouped_cons k p t :
    grouped t ->
    (match t with (k', _) :: _ => k' = k | [] => False end \/ ~ In k (map fst t)) ->
    grouped ((k, p) :: t).

(** A run of DeHashParent calls. *)
Fixpoint dehash_calls {T} (parent : T -> Z) (ps : list Z) (s : snak T) : outcome (snak T) :=
  match ps with
  | [] => Ok s
  | p :: r => do s1 <- dehash_parent parent p s; dehash_calls parent r s1
  end.

(** Was position [p] reached through the writable operator? *)
Definition written {T} (p : nat) (ops : list (mop T)) : bool :=
  existsb (fun o => match o with MWrite a _ => (a =? Z.of_nat p) | MRead _ => false end) ops.

(** A sequence of writes through HashedVectorPair::operator(). *)
Fixpoint hp_updates {S_} (szero : S_) (l : list (Z * (S_ -> S_))) (s : hpair S_) : outcome (hpair S_) :=
  match l with
  | [] => Ok s
  | (k, f) :: r => do s1 <- hp_update szero k f s; hp_updates szero r s1
  end.
