(** Model of the container templates.
    Sources: SRCC/incl/arraystructures.hpp, SRCC/incl/arraystructures_incl.cpp,
    SRCC/incl/snakstruct_incl.cpp. *)
From Verif Require Import Base.
Set Implicit Arguments.
Open Scope Z_scope.

(** A [std::unordered_multimap<int,int>]: the stored pairs.  The list order
    stands for the (unspecified) iteration order. *)
Definition htable := list (Z * nat).

(** [equal_range(key)], values only.
    arraystructures_incl.cpp:131-153 (ReturnDataEqualRange). *)
Definition entries (k : Z) (t : htable) : list nat :=
  map snd (filter (fun p => fst p =? k) t).

(** What [hashTable.find(key)] may legally give, as the callers use it
    (arraystructures_incl.cpp:405-431 and FindSub at 755-766): -1 when no pair
    has the key, otherwise the value of *some* pair with that key - the
    standard does not say which. *)
Definition legal_find (t : htable) (k : Z) (r : Z) : Prop :=
  (entries k t = [] /\ r = -1) \/
  (exists p, In p (entries k t) /\ r = Z.of_nat p).

(** An executable choice (the first pair), used for examples and for the
    refutations. *)
Definition find_first (t : htable) (k : Z) : Z :=
  match entries k t with [] => -1 | p :: _ => Z.of_nat p end.

(** [for i: emplace(key(elems[i]), i)] on an empty table.
    arraystructures_incl.cpp:527-541 and snakstruct_incl.cpp:24-40. *)
Fixpoint hash_from {T} (key : T -> Z) (l : list T) (n : nat) : htable :=
  match l with
  | [] => []
  | e :: r => (key e, n) :: hash_from key r (S n)
  end.
Definition hash_all {T} (key : T -> Z) (l : list T) : htable := hash_from key l 0.

(** [elems[ii].index = ii+1] for all ii.  arraystructures_incl.cpp:601-606. *)
Fixpoint number_from {T} (set_index : Z -> T -> T) (l : list T) (n : Z) : list T :=
  match l with
  | [] => []
  | e :: r => set_index n e :: number_from set_index r (n + 1)
  end.

(** Loop of SetMaxIndex (arraystructures_incl.cpp:555-568): from the last to
    the first element, starting at 0. *)
Fixpoint max_index {T} (index : T -> Z) (l : list T) : Z :=
  match l with
  | [] => 0
  | e :: r => let m := max_index index r in
              if m <? index e then index e else m
  end.

Section ArrayStruct.
(** The element class: what the templates need from it
    (ArrayStructpart/snakpart, arraystructures.hpp:490-511).  [Key()] is the
    index for every element class of the code base. *)
Variable T : Type.
Variable index : T -> Z.
Variable set_index : Z -> T -> T.
Variable parent : T -> Z.                    (* KeyParent() *)
Variable prepare_elem : T -> T.              (* T::PrepareForUse() *)
Variable ready_elem : bool -> T -> bool.     (* T::isready(isInMesh) *)
Variable change_elem : Z -> Z -> Z -> Z -> T -> T.  (* T::ChangeIndices *)
Variable default_elem : T.                   (* T sT; *)

(** arraystructures.hpp:113-124.  [maxIndex] is uninitialised in a fresh
    object: the initial state takes it as an argument. *)
Record arr := mkArr {
  elems : list T;
  table : htable;
  maxIndex : Z;
  isHash : bool;
  isSetMI : bool;
  readyforuse : bool;
  isInMesh : bool }.

Definition fresh (garbage : Z) : arr :=
  {| elems := []; table := []; maxIndex := garbage; isHash := false;
     isSetMI := false; readyforuse := false; isInMesh := false |}.

(** 527-541 *)
Definition hash_array (s : arr) : arr :=
  {| elems := elems s; table := hash_all index (elems s);
     maxIndex := maxIndex s; isHash := true; isSetMI := isSetMI s;
     readyforuse := readyforuse s; isInMesh := isInMesh s |}.

(** 555-568 *)
Definition set_max_index (s : arr) : arr :=
  {| elems := elems s; table := table s;
     maxIndex := max_index index (elems s); isHash := isHash s; isSetMI := true;
     readyforuse := readyforuse s; isInMesh := isInMesh s |}.

Definition with_elems (l : list T) (s : arr) : arr :=
  {| elems := l; table := table s; maxIndex := maxIndex s; isHash := isHash s;
     isSetMI := isSetMI s; readyforuse := readyforuse s; isInMesh := isInMesh s |}.

(** Replace the elements and reset the three flags: the common tail of
    operator[], Concatenate, ChangeIndices and assign. *)
Definition with_elems_reset (l : list T) (s : arr) : arr :=
  {| elems := l; table := table s; maxIndex := maxIndex s; isHash := false;
     isSetMI := false; readyforuse := false; isInMesh := isInMesh s |}.

(** 625-640 *)
Definition prepare (s : arr) : arr :=
  let s1 := with_elems (map prepare_elem (elems s)) s in
  let s2 := if isSetMI s1 then s1 else set_max_index s1 in
  let s3 := if isHash s2 then s2 else hash_array s2 in
  {| elems := elems s3; table := table s3; maxIndex := maxIndex s3;
     isHash := isHash s3; isSetMI := isSetMI s3; readyforuse := true;
     isInMesh := isInMesh s3 |}.

(** 679-685: flags are left as they are. *)
Definition push_back (e : T) (s : arr) : arr :=
  {| elems := elems s ++ [e];
     table := table s ++ [(index e, length (elems s))];
     maxIndex := if maxIndex s <? index e then index e else maxIndex s;
     isHash := isHash s; isSetMI := isSetMI s; readyforuse := readyforuse s;
     isInMesh := isInMesh s |}.

(** arraystructures.hpp:224-243: operator[](a), then a write [f] through the
    returned reference.  Keeping the reference for later is not modelled. *)
Definition edit (a : Z) (f : T -> T) (s : arr) : outcome arr :=
  do e <- at_ (elems s) a;
  Ok (with_elems_reset (upd (elems s) (Z.to_nat a) (f e)) s).

(** The predicate given to remove_if: HashedVector::operator() (742-745) on the
    hashed deletion list. *)
Definition in_del_hash (del : list Z) (e : T) : bool :=
  negb (find_first (hash_all (fun x => x) del) (index e) =? -1).
(** 642-662: isHash and isSetMI are reset, readyforuse is not. *)
Definition remove (del : list Z) (s : arr) : arr :=
  {| elems := filter (fun e => negb (in_del_hash del e)) (elems s);
     table := table s; maxIndex := maxIndex s; isHash := false;
     isSetMI := false; readyforuse := readyforuse s; isInMesh := isInMesh s |}.

(** 580-597 *)
Definition concatenate (other : list T) (s : arr) : arr :=
  with_elems_reset (elems s ++ other) s.

(** 599-611 *)
Definition populate (s : arr) : arr :=
  hash_array
    {| elems := number_from set_index (elems s) 1; table := table s;
       maxIndex := Z.of_nat (length (elems s)); isHash := false; isSetMI := true;
       readyforuse := false; isInMesh := isInMesh s |}.

(** 613-623 *)
Definition change_indices (nv ne ns nvo : Z) (s : arr) : arr :=
  with_elems_reset (map (change_elem nv ne ns nvo) (elems s)) s.

(** 672-678.  A negative count throws std::length_error (conversion to
    size_t); the model takes the count as nat and leaves that call out. *)
Definition assign (n : nat) (e : T) (s : arr) : arr :=
  with_elems_reset (repeat e n) s.

(** 690-697: the flags stay. *)
Definition clear (s : arr) : arr :=
  {| elems := []; table := []; maxIndex := 0; isHash := isHash s;
     isSetMI := isSetMI s; readyforuse := readyforuse s; isInMesh := isInMesh s |}.

(** 519-525 *)
Definition init (n : nat) (s : arr) : arr := assign n default_elem (clear s).

(** 453-463: Init(n), then the elements are overwritten directly (no flag
    change).  The parsed elements are the argument. *)
Definition read_elems (inmesh : bool) (l : list T) (s : arr) : arr :=
  let s1 := init (length l) s in
  {| elems := l; table := table s1; maxIndex := maxIndex s1; isHash := isHash s1;
     isSetMI := isSetMI s1; readyforuse := readyforuse s1; isInMesh := inmesh |}.

(** 481-486.  Protected: used by mesh and snake when they know better. *)
Definition force_ready (s : arr) : arr :=
  {| elems := elems s; table := table s; maxIndex := maxIndex s; isHash := true;
     isSetMI := true; readyforuse := true; isInMesh := isInMesh s |}.

(** 465-480, the returned value. *)
Definition checkready (s : arr) : bool :=
  isHash s && isSetMI s && forallb (ready_elem (isInMesh s)) (elems s).

Inductive op :=
| OPush (e : T)
| OEdit (a : Z) (f : T -> T)
| ORemove (del : list Z)
| OConcat (other : list T)
| OPopulate
| OChange (nv ne ns nvo : Z)
| OAssign (n : nat) (e : T)
| OClear
| OInit (n : nat)
| ORead (inmesh : bool) (l : list T)
| OPrepare
| OHash
| OSetMax.

Definition step (s : arr) (o : op) : outcome arr :=
  match o with
  | OPush e => Ok (push_back e s)
  | OEdit a f => edit a f s
  | ORemove d => Ok (remove d s)
  | OConcat l => Ok (concatenate l s)
  | OPopulate => Ok (populate s)
  | OChange a b c d => Ok (change_indices a b c d s)
  | OAssign n e => Ok (assign n e s)
  | OClear => Ok (clear s)
  | OInit n => Ok (init n s)
  | ORead b l => Ok (read_elems b l s)
  | OPrepare => Ok (prepare s)
  | OHash => Ok (hash_array s)
  | OSetMax => Ok (set_max_index s)
  end.

Fixpoint run (ops : list op) (s : arr) : outcome arr :=
  match ops with
  | [] => Ok s
  | o :: r => do s1 <- step s o; run r s1
  end.

(** ** SnakStruct: the parent table.  arraystructures.hpp:246-282. *)
Record snak := mkSnak {
  base : arr;
  ptable : htable;
  isHashParent : bool }.

Definition sfresh (garbage : Z) : snak :=
  {| base := fresh garbage; ptable := []; isHashParent := false |}.

(** snakstruct_incl.cpp:24-40 *)
Definition hash_parent (s : snak) : snak :=
  {| base := base s; ptable := hash_all parent (elems (base s)); isHashParent := true |}.

(** 89-99 *)
Definition sprepare (s : snak) : snak :=
  let s1 := {| base := prepare (base s); ptable := ptable s;
               isHashParent := isHashParent s |} in
  if isHashParent s1 then s1 else hash_parent s1.

(** 165-171 *)
Definition spush_back (e : T) (s : snak) : snak :=
  {| base := push_back e (base s);
     ptable := ptable s ++ [(parent e, length (elems (base s)))];
     isHashParent := isHashParent s |}.

Definition with_base (b : arr) (s : snak) : snak :=
  {| base := b; ptable := ptable s; isHashParent := isHashParent s |}.
Definition with_base_reset (b : arr) (s : snak) : snak :=
  {| base := b; ptable := ptable s; isHashParent := false |}.

(** arraystructures.hpp:277-281 *)
Definition sedit (a : Z) (f : T -> T) (s : snak) : outcome snak :=
  do b <- edit a f (base s); Ok (with_base_reset b s).
(** 107-111 *)
Definition sremove (del : list Z) (s : snak) : snak :=
  with_base_reset (remove del (base s)) s.
(** 101-105 *)
Definition sconcatenate (other : list T) (s : snak) : snak :=
  with_base_reset (concatenate other (base s)) s.
(** 118-123: isHashParent stays. *)
Definition sclear (s : snak) : snak :=
  {| base := clear (base s); ptable := []; isHashParent := isHashParent s |}.
(** 124-128 *)
Definition sinit (n : nat) (s : snak) : snak :=
  let s1 := sclear s in with_base (init n (base s1)) s1.
(** Inherited from ArrayStruct, not overridden: the parent table and its flag
    are not touched (assign, read, PopulateIndices, ChangeIndices). *)
Definition sassign (n : nat) (e : T) (s : snak) : snak := with_base (assign n e (base s)) s.
Definition sread (b : bool) (l : list T) (s : snak) : snak := with_base (read_elems b l (base s)) s.
Definition spopulate (s : snak) : snak := with_base (populate (base s)) s.
Definition schange (nv ne ns nvo : Z) (s : snak) : snak :=
  with_base (change_indices nv ne ns nvo (base s)) s.

Definition sstep (s : snak) (o : op) : outcome snak :=
  match o with
  | OPush e => Ok (spush_back e s)
  | OEdit a f => sedit a f s
  | ORemove d => Ok (sremove d s)
  | OConcat l => Ok (sconcatenate l s)
  | OPopulate => Ok (spopulate s)
  | OChange a b c d => Ok (schange a b c d s)
  | OAssign n e => Ok (sassign n e s)
  | OClear => Ok (sclear s)
  | OInit n => Ok (sinit n s)
  | ORead b l => Ok (sread b l s)
  | OPrepare => Ok (sprepare s)
  | OHash => Ok (with_base (hash_array (base s)) s)
  | OSetMax => Ok (with_base (set_max_index (base s)) s)
  end.

Fixpoint srun (ops : list op) (s : snak) : outcome snak :=
  match ops with
  | [] => Ok s
  | o :: r => do s1 <- sstep s o; srun r s1
  end.

(** arraystructures.hpp:261-264 *)
Definition countparent (k : Z) (s : snak) : Z := Z.of_nat (length (entries k (ptable s))).

(** DeHashParent, snakstruct_incl.cpp:42-62, on the table in iteration order.
    [it] is the suffix of the table that the iterator points into; the empty
    suffix is [end()], whose dereference is undefined.  [find] is taken to
    give the first pair of the group of equal keys (libstdc++). *)
Fixpoint seek (k : Z) (t : htable) : htable * htable :=   (* before, from iterator *)
  match t with
  | [] => ([], [])
  | (k', p) :: r => if k' =? k then ([], t)
                    else let (b, i) := seek k r in ((k', p) :: b, i)
  end.

Fixpoint walk (k : Z) (pos : nat) (it : htable) : outcome (htable * htable) :=
  match it with
  | [] => UB
  | (k', p) :: r =>
      if negb (Nat.eqb p pos) && (k' =? k) then
        do (b, i) <- walk k pos r; Ok ((k', p) :: b, i)
      else Ok ([], it)
  end.

Definition dehash (k : Z) (pos : nat) (t : htable) : outcome htable :=
  let (b0, it0) := seek k t in
  do (b1, it1) <- walk k pos it0;
  match it1 with
  | [] => UB
  | (k', p) :: r => if Nat.eqb p pos && (k' =? k) then Ok (b0 ++ b1 ++ r) else Throw
  end.

Definition dehash_parent (pos : Z) (s : snak) : outcome snak :=
  do e <- at_ (elems (base s)) pos;
  do t <- dehash (parent e) (Z.to_nat pos) (ptable s);
  Ok {| base := base s; ptable := t; isHashParent := isHashParent s |}.

(** memberIsHashParent, 63-87. *)
Fixpoint walk_safe (k : Z) (pos : nat) (it : htable) : bool :=
  match it with
  | [] => false
  | (k', p) :: r =>
      if negb (Nat.eqb p pos) && (k' =? k) then walk_safe k pos r
      else Nat.eqb p pos && (k' =? k)
  end.
Definition member_is_hash_parent (pos : Z) (s : snak) : outcome bool :=
  do e <- at_ (elems (base s)) pos;
  Ok (walk_safe (parent e) (Z.to_nat pos) (snd (seek (parent e) (ptable s)))).

(** ** ModiftrackArray, arraystructures.hpp:284-303 and
    snakstruct_incl.cpp:174-207.  An element together with its isModif. *)
Definition marr := list (T * bool).
Definition set_no_modif (s : marr) : marr := map (fun e => (fst e, false)) s.
Inductive mop := MRead (a : Z) | MWrite (a : Z) (f : T -> T).
(** operator() const (183-201) and operator[] (295-302). *)
Definition mstep (s : marr) (o : mop) : outcome marr :=
  match o with
  | MRead a => do _ <- at_ s a; Ok s
  | MWrite a f => do e <- at_ s a; Ok (upd s (Z.to_nat a) (f (fst e), true))
  end.
Fixpoint mrun (ops : list mop) (s : marr) : outcome marr :=
  match ops with
  | [] => Ok s
  | o :: r => do s1 <- mstep s o; mrun r s1
  end.
Definition return_modif_ind (s : marr) : list Z :=
  map (fun e => index (fst e)) (filter snd s).
(** [modiflog[ii] = (elems[ii].index);] int converted to bool, line 205. *)
Definition return_modif_log (s : marr) : list bool :=
  map (fun e => negb (index (fst e) =? 0)) s.

End ArrayStruct.
Arguments ORemove {T} del.
Arguments OPopulate {T}.
Arguments OChange {T} nv ne ns nvo.
Arguments OClear {T}.
Arguments OInit {T} n.
Arguments OPrepare {T}.
Arguments OHash {T}.
Arguments OSetMax {T}.
Arguments MRead {T} a.

(** ** HashedVector<int,...,int>, arraystructures.hpp:305-355 and
    arraystructures_incl.cpp:700-752. *)
Record hvec := mkHvec { vec : list Z; vtable : htable; visHash : bool }.
Definition hv_fresh : hvec := {| vec := []; vtable := []; visHash := true |}.
(** 700-705, HashVector 828-853 with no target vector. *)
Definition hv_generate (s : hvec) : hvec :=
  {| vec := vec s; vtable := hash_all (fun x => x) (vec s); visHash := true |}.
(** hpp:339-344 *)
Definition hv_push (x : Z) (s : hvec) : hvec :=
  {| vec := vec s ++ [x]; vtable := vtable s ++ [(x, length (vec s))]; visHash := visHash s |}.
(** hpp:320-323: writable operator[], nothing is invalidated. *)
Definition hv_write (a : Z) (x : Z) (s : hvec) : outcome hvec :=
  do _ <- at_ (vec s) a;
  Ok {| vec := upd (vec s) (Z.to_nat a) x; vtable := vtable s; visHash := visHash s |}.
(** hpp:334-338 *)
Definition hv_assign (n : nat) (x : Z) (s : hvec) : hvec :=
  {| vec := repeat x n; vtable := vtable s; visHash := false |}.
(** hpp:345-350 *)
Definition hv_clear (s : hvec) : hvec := hv_fresh.
(** Direct assignment to the public member vec. *)
Definition hv_setvec (l : list Z) (s : hvec) : hvec :=
  {| vec := l; vtable := vtable s; visHash := visHash s |}.
(** 710-717 *)
Definition hv_findall (k : Z) (s : hvec) : list nat := entries k (vtable s).
Definition hv_count (k : Z) (s : hvec) : Z := Z.of_nat (length (entries k (vtable s))).

Inductive hop := HPush (x : Z) | HWrite (a x : Z) | HAssign (n : nat) (x : Z)
               | HClear | HSetVec (l : list Z) | HGenerate.
Definition hstep (s : hvec) (o : hop) : outcome hvec :=
  match o with
  | HPush x => Ok (hv_push x s)
  | HWrite a x => hv_write a x s
  | HAssign n x => Ok (hv_assign n x s)
  | HClear => Ok (hv_clear s)
  | HSetVec l => Ok (hv_setvec l s)
  | HGenerate => Ok (hv_generate s)
  end.
Fixpoint hrun (ops : list hop) (s : hvec) : outcome hvec :=
  match ops with
  | [] => Ok s
  | o :: r => do s1 <- hstep s o; hrun r s1
  end.

(** FindSubList with a writable table (768-796): fills the table only when it
    is empty.  Uses the executable choice for duplicates. *)
Definition find_sub_list (keyFind keyList : list Z) (t : htable) : list Z * htable :=
  let t' := match t with [] => hash_all (fun x => x) keyList | _ => t end in
  (map (find_first t') keyFind, t').

(** EraseKeyPair (855-877) receives the table by value: the caller's table is
    what it was, whatever happened to the copy. *)
Definition erase_key_pair (t : htable) (k : Z) (pos : nat) : outcome htable :=
  do _ <- dehash k pos t; Ok t.

(** ** sort and unique, arraystructures_incl.cpp:155-163.  std::sort on ints has
    one possible result; an insertion sort computes it. *)
Fixpoint sort_insert (x : Z) (l : list Z) : list Z :=
  match l with
  | [] => [x]
  | y :: r => if x <=? y then x :: l else y :: sort_insert x r
  end.
Fixpoint sort_z (l : list Z) : list Z :=
  match l with [] => [] | x :: r => sort_insert x (sort_z r) end.
(** std::unique: drop an element equal to the previously kept one. *)
Fixpoint unique_z (l : list Z) : list Z :=
  match l with
  | [] => []
  | x :: r => match r with
              | [] => [x]
              | y :: _ => if x =? y then unique_z r else x :: unique_z r
              end
  end.
Definition tighten (l : list Z) : list Z := unique_z (sort_z l).

(** Range of int. *)
Definition in_int (z : Z) : bool := (-2147483648 <=? z) && (z <=? 2147483647).

(** ** HashedVectorPair and SparseMatrixTriplet.
    arraystructures.hpp:368-417, RSVScalc.hpp:73-120, RSVScalc.cpp:610-650. *)
Section Pair.
Variable S_ : Type.
Variable szero : S_.                       (* S(0) *)
Record hpair := mkHpair { pvec : list Z; phtable : htable; targ : list S_ }.
Definition hp_fresh : hpair := {| pvec := []; phtable := []; targ := [] |}.
(** 407-411 *)
Definition hp_push (k : Z) (v : S_) (s : hpair) : hpair :=
  {| pvec := pvec s ++ [k]; phtable := phtable s ++ [(k, length (pvec s))];
     targ := targ s ++ [v] |}.
(** 378-387 followed by a write [f] through the returned reference.  Each key
    is stored once, so the choice made by find is irrelevant; the model uses
    the first pair. *)
Definition hp_update (k : Z) (f : S_ -> S_) (s : hpair) : outcome hpair :=
  let pos := find_first (phtable s) k in
  let s1 := if pos =? -1 then hp_push k szero s else s in
  let pos1 := if pos =? -1 then Z.of_nat (length (pvec s1)) - 1 else pos in
  do v <- at_ (targ s1) pos1;
  Ok {| pvec := pvec s1; phtable := phtable s1;
        targ := upd (targ s1) (Z.to_nat pos1) (f v) |}.
(** 388-396: the const version. *)
Definition hp_get (k : Z) (s : hpair) : outcome S_ :=
  let pos := find_first (phtable s) k in
  if pos =? -1 then Ok szero else at_ (targ s) pos.

(** SparseMatrixTriplet::operator()(a,b), RSVScalc.hpp:79-88: key a + nRow*b
    in int; signed overflow is undefined.  The SAFE_ACCESS range test is off
    in the default build and not modelled. *)
Definition sm_key (nRow a b : Z) : outcome Z :=
  if in_int (nRow * b) && in_int (a + nRow * b) then Ok (a + nRow * b) else UB.
(** [coeffRef(a,b) += v] for a list of contributions. *)
Variable sadd : S_ -> S_ -> S_.
Fixpoint sm_accumulate (nRow : Z) (l : list (Z * Z * S_)) (s : hpair) : outcome hpair :=
  match l with
  | [] => Ok s
  | (a, b, v) :: r =>
      do k <- sm_key nRow a b;
      do s1 <- hp_update k (fun x => sadd x v) s;
      sm_accumulate nRow r s1
  end.
(** operator[](i), RSVScalc.cpp:640-650: row, column, value.  C++ [%] and [/]
    truncate towards zero (Z.rem, Z.quot); division by zero is undefined. *)
Definition sm_triplet (nRow : Z) (s : hpair) (i : nat) : outcome (Z * Z * S_) :=
  if nRow =? 0 then UB else
  do k <- at_ (pvec s) (Z.of_nat i);
  do v <- at_ (targ s) (Z.of_nat i);
  Ok (Z.rem k nRow, Z.quot k nRow, v).
(** SetEqual(MatrixXd&), RSVScalc.cpp:623-633: a zero matrix overwritten by
    each triplet in turn.  The matrix is a function of row and column. *)
Definition mat_set (m : Z -> Z -> S_) (a b : Z) (v : S_) : Z -> Z -> S_ :=
  fun i j => if (i =? a) && (j =? b) then v else m i j.
Fixpoint sm_dense_from (nRow : Z) (s : hpair) (n i : nat) (m : Z -> Z -> S_) : outcome (Z -> Z -> S_) :=
  match n with
  | O => Ok m
  | S n' => do (a, b, v) <- sm_triplet nRow s i;
            sm_dense_from nRow s n' (S i) (mat_set m a b v)
  end.
Definition sm_dense (nRow : Z) (s : hpair) : outcome (Z -> Z -> S_) :=
  sm_dense_from nRow s (length (pvec s)) 0 (fun _ _ => szero).
End Pair.
