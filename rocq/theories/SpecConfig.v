(** What a configuration file means: the values at its leaves. *)
From Coq Require Import String ZArith QArith List.
From Verif Require Import Base Config.
Import ListNotations.
Set Implicit Arguments.
Open Scope Z_scope.

(** One step from a value to a part of it. *)
Inductive step := Key (k : string) | Elem (i : nat).

(** [leaf j p v]: following [p] from [j] reaches the value [v], which has no
    parts. *)
Inductive leaf : json -> list step -> json -> Prop :=
| leaf_value v : primitive v = true -> leaf v [] v
| leaf_elem l i x p v : nth_error l i = Some x -> leaf x p v -> leaf (JArr l) (Elem i :: p) v
| leaf_key m k x p v : In (k, x) m -> leaf x p v -> leaf (JObj m) (Key k :: p) v.

(** Values of one type, the integers within 32 bits. *)
Inductive same_kind : json -> json -> Prop :=
| kind_bool a b : same_kind (JBool a) (JBool b)
| kind_int a b : -2147483648 <= b < 2147483648 -> same_kind (JInt a) (JInt b)
| kind_float a b : same_kind (JFloat a) (JFloat (Fin b))
| kind_str a b : same_kind (JStr a) (JStr b).

(** The members of an object are in the order of their keys, without repetition:
    a std::map. *)
Inductive ordered : json -> Prop :=
| ordered_value v : primitive v = true -> ordered v
| ordered_arr l : (forall x, In x l -> ordered x) -> ordered (JArr l)
| ordered_obj m : (forall k x, In (k, x) m -> ordered x) ->
    (forall i j a b, (i < j)%nat -> nth_error (map fst m) i = Some a -> nth_error (map fst m) j = Some b ->
       (a ?= b)%string = Lt) -> ordered (JObj m).

(** The integers of [p] fit in 32 bits, as those of any C++ object do, and its
    doubles are finite. *)
Definition representable (access : bool) (p : parameters) : Prop :=
  (forall path z, leaf (to_json access p) path (JInt z) -> -2147483648 <= z < 2147483648) /\
  (forall path, ~ leaf (to_json access p) path (JFloat Nonfin)).

(** [new] written over [old]: the end of a longer [old] stays. *)
Definition over {A} (new old : list A) : list A := new ++ skipn (length new) old.

(** The reference of a path in a flat file. *)
Fixpoint reference (p : list step) : string :=
  match p with
  | [] => ""
  | Key k :: r => ("/" ++ escape k ++ reference r)%string
  | Elem i :: r => ("/" ++ dec i ++ reference r)%string
  end.

(** [empty_at j p]: following [p] from [j] reaches a list or an object without
    parts. *)
Inductive empty_at : json -> list step -> Prop :=
| empty_arr : empty_at (JArr []) []
| empty_obj : empty_at (JObj []) []
| empty_elem l i x p : nth_error l i = Some x -> empty_at x p -> empty_at (JArr l) (Elem i :: p)
| empty_key m k x p : In (k, x) m -> empty_at x p -> empty_at (JObj m) (Key k :: p).

(** The three lists of variable length have elements. *)
Definition lists_filled (p : parameters) : Prop :=
  inputpoints (gvoronoi (pgrid p)) <> [] /\
  loglvlspecialisation (tecplot (fioout (pfiles p))) <> [] /\
  exportconfig (pfiles p) <> [].

(** The settings [q] with its three lists written over those of [p], and with the
    development parameters of [p] when they are not accessible. *)
Definition written_over (access : bool) (q p : parameters) : parameters :=
  let g := pgrid q in let v := gvoronoi g in
  let f := pfiles q in let o := fioout f in let t := tecplot o in
  mkParam (prsvs q) (psnak q)
    (mkGrid (domain g) (gvoxel g)
       (mkVoronoi (over (inputpoints v) (inputpoints (gvoronoi (pgrid p)))) (distancebox v) (pointfile v)
          (snakecoarseness v) (vorosnakelayers v))
       (physdomain g) (activegrid g))
    (mkFiles (fioin f)
       (mkIoout (pathoutdir o) (pathpattern o) (basenamepattern o) (basenameoutdir o) (outdir o) (pattern o)
          (redirectcout o) (redirectcerr o) (logginglvl o) (outputlvl o)
          (mkTemplate (directory t) (templateregex t) (filenameregex t)
             (over (loglvlspecialisation t) (loglvlspecialisation (tecplot (fioout (pfiles p)))))))
       (appcasename2outdir f) (over (exportconfig f) (exportconfig (pfiles p))))
    (if access then pdev q else pdev p).

(** ** Command line settings *)
(** [text] read as a value of the type of [v] is [w]. *)
Definition reads (stoi : string -> outcome Z) (stod : string -> outcome dbl) (parse : string -> outcome json)
  (v : json) (text : string) (w : json) : Prop :=
  match v with
  | JStr _ => w = JStr text
  | JInt _ => exists z, stoi text = Ok z /\ -2147483648 <= z < 2147483648 /\ w = JInt z
  | JFloat _ => exists x, stod text = Ok (Fin x) /\ w = JFloat (Fin x)
  | JBool _ => exists b, parse text = Ok (JBool b) /\ w = JBool b
  | _ => False
  end.
(** One string of the command line: a reference, the separator and a text; or a
    string without the separator. *)
Inductive request := Named (path : list step) (text : string) (w : json) | Stray (s : string).
Definition spelled (sep : string) (r : request) : string :=
  match r with Named path text _ => (reference path ++ sep ++ text)%string | Stray s => s end.
Fixpoint occurs (c : Ascii.ascii) (s : string) : Prop :=
  match s with EmptyString => False | String d r => c = d \/ occurs c r end.
Definition step_eq (a b : step) : {a = b} + {a <> b}.
Proof. decide equality; [apply string_dec|decide equality]. Defined.
(** The last text given for a path decides. *)
Fixpoint assigned (rs : list request) (path : list step) : option json :=
  match rs with
  | [] => None
  | r :: rest =>
      match assigned rest path with
      | Some w => Some w
      | None => match r with
                | Named q _ w => if list_eq_dec step_eq q path then Some w else None
                | Stray _ => None
                end
      end
  end.
Definition strays (rs : list request) : Z :=
  Z.of_nat (length (List.filter (fun r => match r with Stray _ => true | _ => false end) rs)).
