(** What the family properties C44 to C46 mean, stated apart from the code's
    own loops. *)
From Coq Require Import ZArith List Bool QArith Qabs.
From Verif Require Import Base Mesh Family.
Import ListNotations.
Local Open Scope Z_scope.
Set Implicit Arguments.

Definition parents_of (f : family) (a : Z) : list Z := parentmesh (mtree (f a)).
Definition children_of (f : family) (a : Z) : list Z := childmesh (mtree (f a)).
Definition times (x : Z) (l : list Z) : nat := count_occ Z.eq_dec l x.

(** m lists p as a parent as often as p lists m as a child. *)
Definition mutual_links (f : family) : Prop :=
  forall m p, alive (f m) = true -> alive (f p) = true ->
              times p (parents_of f m) = times m (children_of f p).

(** A mesh that exists lists only meshes that exist. *)
Definition no_dangling (f : family) : Prop :=
  forall m a, alive (f m) = true -> In a (parents_of f m) \/ In a (children_of f m) ->
              alive (f a) = true.

(** Histories of construction, linking and destruction in which no call of
    AddChild with a connection list throws. *)
Definition ordinary (o : fop) (threw : bool) : Prop :=
  match o with
  | FLeave _ | FCopy _ _ => False
  | FAddChildConn _ _ _ => threw = false
  | _ => True
  end.
Inductive reach : family -> Prop :=
| reach_start : reach nobody
| reach_step f o f' threw :
    reach f -> fstep o f = Ok (f', threw) -> ordinary o threw -> reach f'.

(** The links made by a call: child, parent and connection list. *)
Definition new_links (o : fop) (threw : bool) : list (Z * (Z * list Z)) :=
  if threw then [] else
  match o with
  | FAddChild a c => [(c, (a, []))]
  | FAddParent a p => [(a, (p, []))]
  | FAddChildConn a c l => [(c, (a, l))]
  | FAddParentConn a p l => [(a, (p, l))]
  | _ => []
  end.
(** Histories in which only meshes without children are destroyed, with the
    links made to meshes that still exist, oldest first. *)
Inductive grown : family -> list (Z * (Z * list Z)) -> Prop :=
| grown_start : grown nobody []
| grown_add f L o f' threw :
    grown f L -> fstep o f = Ok (f', threw) ->
    match o with FDestroy _ | FLeave _ | FCopy _ _ | FClear _ => False | _ => True end ->
    grown f' (L ++ new_links o threw)
| grown_destroy f L a f' threw :
    grown f L -> children_of f a = [] -> fstep (FDestroy a) f = Ok (f', threw) ->
    grown f' (filter (fun x => negb (fst x =? a)) L).
Definition links_of (L : list (Z * (Z * list Z))) (a : Z) : list (Z * list Z) :=
  map snd (filter (fun x => fst x =? a) L).

(** Histories of any calls but the two that take no connection list. *)
Inductive counted : family -> Prop :=
| counted_start : counted nobody
| counted_step f o f' threw :
    counted f -> fstep o f = Ok (f', threw) ->
    match o with FAddChild _ _ | FAddParent _ _ => False | _ => True end -> counted f'.

(** ** Cells of a parent *)

(** Volume v of the mesh lies in cell c of parent j. *)
Definition lies_in (m : mesh) (t : tree) (j : nat) (v c : Z) : Prop :=
  exists k vo row, nth_error (volus m) k = Some vo /\ vo_index vo = v /\
                   nth_error (parentconn t) j = Some row /\ nth_error row k = Some c.
(** v is a volume of the mesh; otherwise it stands for the exterior. *)
Definition inside (m : mesh) (v : Z) : Prop := In v (map vo_index (volus m)).
(** The two sides belong to different cells of parent j. *)
Definition apart (m : mesh) (t : tree) (j : nat) (v0 v1 : Z) : Prop :=
  (inside m v0 /\ ~ inside m v1) \/ (~ inside m v0 /\ inside m v1) \/
  (exists c0 c1, lies_in m t j v0 c0 /\ lies_in m t j v1 c1 /\ c0 <> c1).
Definition sides (s : surf) (v0 v1 : Z) : Prop := exists r, su_voluind s = v0 :: v1 :: r.

(** A mesh with its connection lists in order: indices are unique, surfaces have
    two sides, and every parent has a list as long as the list of volumes. *)
Definition family_ready (m : mesh) (t : tree) : Prop :=
  NoDup (map vo_index (volus m)) /\ NoDup (map su_index (surfs m)) /\
  (forall s, In s (surfs m) -> exists v0 v1, sides s v0 v1) /\
  0 <= nParents t <= Z.of_nat (length (parentconn t)) /\
  (forall row, In row (parentconn t) -> length row = length (volus m)).

(** The target of the cell of parent j that holds volume v. *)
Definition parent_target (m : mesh) (t : tree) (h : cells) (j : nat) (v : Z) (q : Q) : Prop :=
  exists c p x, lies_in m t j v c /\ nth_error (parentmesh t) j = Some p /\
                In x (h p) /\ ce_index x = c /\ ce_target x = q.
(** Each cell named by a connection list is in the parent, once. *)
Definition parents_ready (t : tree) (h : cells) : Prop :=
  nParents t <= Z.of_nat (length (parentmesh t)) /\
  forall j p, nth_error (parentmesh t) j = Some p ->
    NoDup (map ce_index (h p)) /\
    forall row, nth_error (parentconn t) j = Some row ->
                forall c, In c row -> In c (map ce_index (h p)).
(** Within one part in 2^52 of the bound. *)
Definition at_bound (outer : bool) (q : Q) : Prop :=
  (Qabs (q - (if outer then 0 else 1)) < 1 # 4503599627370496)%Q.
Definition exactly_one (A B : Prop) : Prop := (A /\ ~ B) \/ (~ A /\ B).

(** ** Constraints *)

(** Connection lists as ReturnParentMap reads them. *)
Definition map_ready (t : tree) (h : cells) : Prop :=
  nParents t = Z.of_nat (length (parentmesh t)) /\
  length (parentconn t) = length (parentmesh t) /\
  forall j p, nth_error (parentmesh t) j = Some p ->
    NoDup (map ce_index (h p)) /\
    forall row, nth_error (parentconn t) j = Some row ->
                length row = length (elemind t) /\
                forall c, In c row -> In c (map ce_index (h p)).

(** A cell differs from another at most in field k, which is v. *)
Definition same_but (k : field) (v : Q) (x y : cell) : Prop :=
  ce_index y = ce_index x /\ get_field k y = v /\
  forall k', k' <> k -> get_field k' y = get_field k' x.

(** The targets [x] and [y] of the parent cells on the two sides, parent by parent, first
    differ with one of them at the bound [b] as [p] and [q]. *)
Definition first_at_bound (b : Q) (x y : list Q) (p q : Q) : Prop :=
  exists i, nth_error x i = Some p /\ nth_error y i = Some q /\ ~ p == q /\ (p == b \/ q == b) /\
    forall j p' q', (j < i)%nat -> nth_error x j = Some p' -> nth_error y j = Some q' -> p' == q' \/ (~ p' == b /\ ~ q' == b).
(** The edge [e] is between the surfaces [s0] and [s1], the surface with the index of the
    edge has its sides in different cells of a parent, and the targets for [s0] and [s1]
    are as above. *)
Definition crossing (m : mesh) (t : tree) (h : cells) (outer : bool) (e : edge) (s0 s1 : Z) (p q : Q) : Prop :=
  (exists r, ed_surfind e = s0 :: s1 :: r) /\ s0 <> 0 /\ s1 <> 0 /\
  (exists j, surf_in_parent m t (ed_index e) = Ok j /\ 0 <= j)%Z /\
  exists x y, parent_values h t Target (find su_index (surfs m) s0) (Z.to_nat (nParents t)) 0 = Ok x /\
    parent_values h t Target (find su_index (surfs m) s1) (Z.to_nat (nParents t)) 0 = Ok y /\ first_at_bound (if outer then 0 else 1)%Q x y p q.
(** The surface [s] is not on the border of the mesh. *)
Definition not_border (m : mesh) (s : Z) : Prop := exists su, In su (surfs m) /\ su_index su = s /\ su_border su = false.
