(** Reading and writing the configuration: SRCC/src/parameters.cpp,
    SRCC/incl/parameters.hpp and SRCC/src/interfaces/rsvsjson.cpp, on top of the
    nlohmann JSON library the project uses (json.hpp, not in the repository; its
    flatten, unflatten, update, at and get_to are modelled from its
    documentation and source).

    A file is the JSON value its text parses to; printing and parsing of the
    text is not modelled, except that a number that is not finite is printed as
    null.  A double is its rational value or [Nonfin].  Integers keep their value
    in the JSON object and are 32 bits in the parameters. *)
From Coq Require Import String Ascii ZArith QArith List Bool DecimalString.
From Verif Require Import Base Mesh.
Import ListNotations.
Set Implicit Arguments.
Open Scope string_scope.
Open Scope Z_scope.

Inductive dbl := Fin (q : Q) | Nonfin.

(** nlohmann::json.  Objects are std::map: pairs sorted by key. *)
Inductive json :=
| JNull
| JBool (b : bool)
| JInt (z : Z)
| JFloat (d : dbl)
| JStr (s : string)
| JArr (l : list json)
| JObj (m : list (string * json)).

(** std::map: find and operator[] = value; the order of std::string is the
    byte order. *)
Fixpoint lookup {A} (m : list (string * A)) (k : string) : option A :=
  match m with
  | [] => None
  | (k', v) :: r => if (k' =? k)%string then Some v else lookup r k
  end.
Fixpoint insert {A} (m : list (string * A)) (k : string) (v : A) : list (string * A) :=
  match m with
  | [] => [(k, v)]
  | (k', v') :: r =>
      match (k ?= k')%string with
      | Lt => (k, v) :: m
      | Eq => (k, v) :: r
      | Gt => (k', v') :: insert r k v
      end
  end.
Definition insert_all {A} (m new : list (string * A)) : list (string * A) :=
  fold_left (fun m e => insert m (fst e) (snd e)) new m.
(** json{{"key", value}, ...}. *)
Definition obj (l : list (string * json)) : json := JObj (insert_all [] l).

(** std::to_string of an index. *)
Definition dec (n : nat) : string := NilEmpty.string_of_uint (Nat.to_uint n).

(** json_pointer::escape. *)
Fixpoint escape (s : string) : string :=
  match s with
  | "" => ""
  | String "~" r => String "~" (String "0" (escape r))
  | String "/" r => String "~" (String "1" (escape r))
  | String c r => String c (escape r)
  end.
(** json_pointer::split, unescape: the tokens of a reference after its first
    slash. *)
Fixpoint tokens (s : string) : outcome (string * list string) :=
  match s with
  | "" => Ok ("", [])
  | String "/" r => do (t, l) <- tokens r; Ok ("", t :: l)
  | String "~" (String "0" r) => do (t, l) <- tokens r; Ok (String "~" t, l)
  | String "~" (String "1" r) => do (t, l) <- tokens r; Ok (String "/" t, l)
  | String "~" _ => Throw
  | String c r => do (t, l) <- tokens r; Ok (String c t, l)
  end.
Definition pointer (s : string) : outcome (list string) :=
  match s with
  | "" => Ok []
  | String "/" r => do (t, l) <- tokens r; Ok (t :: l)
  | _ => Throw
  end.

(** json_pointer::flatten: the entries made, in the order in which they are
    made. *)
Fixpoint entries (ref : string) (j : json) : list (string * json) :=
  match j with
  | JArr [] => [(ref, JNull)]
  | JArr l =>
      (fix go (i : nat) (l : list json) : list (string * json) :=
         match l with
         | [] => []
         | x :: r => (entries (ref ++ "/" ++ dec i) x ++ go (S i) r)%list
         end) O l
  | JObj [] => [(ref, JNull)]
  | JObj m =>
      (fix go (m : list (string * json)) : list (string * json) :=
         match m with
         | [] => []
         | (k, x) :: r => (entries (ref ++ "/" ++ escape k) x ++ go r)%list
         end) m
  | v => [(ref, v)]
  end.
Definition flatten (j : json) : json := obj (entries "" j).

(** json_pointer::array_index; the signs and blanks std::stoi also accepts are
    left out. *)
Definition array_index (t : string) : outcome nat :=
  match NilEmpty.uint_of_string t with
  | Some u => if (t =? "")%string then Throw else Ok (Nat.of_uint u)
  | None => Throw
  end.
(** json_pointer::get_and_create followed by the assignment of [v]. *)
Fixpoint put (toks : list string) (v : json) (j : json) : outcome json :=
  match toks with
  | [] => Ok v
  | t :: r =>
      match j with
      | JNull =>
          if (t =? "0")%string then do c <- put r v JNull; Ok (JArr [c])
          else do c <- put r v JNull; Ok (JObj [(t, c)])
      | JObj m =>
          do c <- put r v (match lookup m t with Some c => c | None => JNull end);
          Ok (JObj (insert m t c))
      | JArr l =>
          do i <- array_index t;
          do c <- put r v (nth i l JNull);
          Ok (JArr (upd (l ++ repeat JNull (i + 1 - length l))%list i c))
      | _ => Throw
      end
  end.
Definition primitive (j : json) : bool := match j with JArr _ | JObj _ => false | _ => true end.
Definition put_entry (e : string * json) (acc : outcome json) : outcome json :=
  do j <- acc;
  if primitive (snd e) then do t <- pointer (fst e); put t (snd e) j else Throw.
Definition unflatten (j : json) : outcome json :=
  match j with
  | JObj m => fold_left (fun acc e => put_entry e acc) m (Ok JNull)
  | _ => Throw
  end.
(** json::update. *)
Definition update (a b : json) : outcome json :=
  match a, b with
  | JObj m, JObj n => Ok (JObj (insert_all m n))
  | _, _ => Throw
  end.

(** rsvsjson::flatupdate, rsvsjson.cpp:4-41, with isFlatFin = false (both
    callers): the final jfin. *)
Definition flatupdate (jfin jnew : json) (flatNew : bool) : outcome json :=
  let jn := if flatNew then jnew else flatten jnew in
  do j <- update (flatten jfin) jn;
  do _ <- unflatten jn;
  unflatten j.

(** ** Conversions of values: json::get_to. *)
Definition at_key (k : string) (j : json) : outcome json :=
  match j with
  | JObj m => match lookup m k with Some v => Ok v | None => Throw end
  | _ => Throw
  end.
(** int: static_cast from the stored number; a double out of range is undefined. *)
Definition wrap32 (z : Z) : Z := (z + 2147483648) mod 4294967296 - 2147483648.
Definition get_int (j : json) : outcome Z :=
  match j with
  | JInt z => Ok (wrap32 z)
  | JBool b => Ok (if b then 1 else 0)
  | JFloat (Fin q) =>
      let z := Z.quot (Qnum q) (Zpos (Qden q)) in
      if (-2147483648 <=? z) && (z <=? 2147483647) then Ok z else UB
  | JFloat Nonfin => UB
  | _ => Throw
  end.
(** double: an integer is converted; the rounding of integers above 2^53 is left
    out. *)
Definition get_dbl (j : json) : outcome dbl :=
  match j with
  | JFloat d => Ok d
  | JInt z => Ok (Fin (inject_Z z))
  | _ => Throw
  end.
Definition get_str (j : json) : outcome string := match j with JStr s => Ok s | _ => Throw end.
Definition get_bool (j : json) : outcome bool := match j with JBool b => Ok b | _ => Throw end.
(** json::at(i) on an array. *)
Definition at_elem (i : nat) (j : json) : outcome json :=
  match j with
  | JArr l => match nth_error l i with Some x => Ok x | None => Throw end
  | _ => Throw
  end.
(** std::array of 2 and 3, std::pair, std::vector. *)
Definition get_two {A B} (f : json -> outcome A) (g : json -> outcome B) (j : json) : outcome (A * B) :=
  do x <- at_elem 0 j; do a <- f x; do y <- at_elem 1 j; do b <- g y; Ok (a, b).
Definition get_three {A} (f : json -> outcome A) (j : json) : outcome (A * A * A) :=
  do x <- at_elem 0 j; do a <- f x; do y <- at_elem 1 j; do b <- f y; do z <- at_elem 2 j; do c <- f z; Ok (a, b, c).
Definition get_list {A} (f : json -> outcome A) (j : json) : outcome (list A) :=
  match j with JArr l => omap_list f l | _ => Throw end.
Definition two {A B} (f : A -> json) (g : B -> json) (p : A * B) : json := JArr [f (fst p); g (snd p)].
Definition three {A} (f : A -> json) (p : A * A * A) : json :=
  let '(a, b, c) := p in JArr [f a; f b; f c].
Definition many {A} (f : A -> json) (l : list A) : json := JArr (map f l).

(** ** The parameters, incl/parameters.hpp:40-298, with the to_json and from_json
    of parameters.cpp. *)
(** filltype, parameters.cpp:22-33. *)
Record filltype (T : Type) := mkFill { active : bool; fill : T }.
Definition fill_to {T} (f : T -> json) (p : filltype T) : json :=
  obj [("active", JBool (active p)); ("fill", f (fill p))].
Definition fill_from {T} (f : json -> outcome T) (j : json) : outcome (filltype T) :=
  do a <- at_key "active" j; do a <- get_bool a;
  do x <- at_key "fill" j; do x <- f x; Ok (mkFill a x).

(** outputtemplate, 47-62. *)
Record outputtemplate := mkTemplate {
  directory : string; templateregex : string; filenameregex : string;
  loglvlspecialisation : list (Z * string) }.
Definition template_to (p : outputtemplate) : json :=
  obj [("directory", JStr (directory p)); ("templateregex", JStr (templateregex p));
       ("filenameregex", JStr (filenameregex p));
       ("loglvlspecialisation", many (two JInt JStr) (loglvlspecialisation p))].
Definition template_from (j : json) : outcome outputtemplate :=
  do a <- at_key "directory" j; do a <- get_str a;
  do b <- at_key "templateregex" j; do b <- get_str b;
  do c <- at_key "filenameregex" j; do c <- get_str c;
  do d <- at_key "loglvlspecialisation" j; do d <- get_list (get_two get_int get_str) d;
  Ok (mkTemplate a b c d).

(** voxel, 102-113. *)
Record voxel := mkVoxel { gridsizebackground : Z * Z * Z; gridsizesnake : Z * Z * Z }.
Definition voxel_to (p : voxel) : json :=
  obj [("gridsizebackground", three JInt (gridsizebackground p)); ("gridsizesnake", three JInt (gridsizesnake p))].
Definition voxel_from (j : json) : outcome voxel :=
  do a <- at_key "gridsizebackground" j; do a <- get_three get_int a;
  do b <- at_key "gridsizesnake" j; do b <- get_three get_int b;
  Ok (mkVoxel a b).

(** voronoi, 134-149. *)
Record voronoi := mkVoronoi {
  inputpoints : list dbl; distancebox : dbl; pointfile : string; snakecoarseness : dbl; vorosnakelayers : Z }.
Definition voronoi_to (p : voronoi) : json :=
  obj [("inputpoints", many JFloat (inputpoints p)); ("distancebox", JFloat (distancebox p));
       ("pointfile", JStr (pointfile p)); ("snakecoarseness", JFloat (snakecoarseness p));
       ("vorosnakelayers", JInt (vorosnakelayers p))].
Definition voronoi_from (j : json) : outcome voronoi :=
  do a <- at_key "inputpoints" j; do a <- get_list get_dbl a;
  do b <- at_key "distancebox" j; do b <- get_dbl b;
  do c <- at_key "pointfile" j; do c <- get_str c;
  do d <- at_key "snakecoarseness" j; do d <- get_dbl d;
  do e <- at_key "vorosnakelayers" j; do e <- get_int e;
  Ok (mkVoronoi a b c d e).

(** snaking, 188-207. *)
Record snaking := mkSnaking {
  arrivaltolerance : dbl; multiarrivaltolerance : dbl; snaxtimestep : dbl; snaxdiststep : dbl;
  initboundary : Z; maxsteps : Z; spawnposition : dbl; engine : string }.
Definition snaking_to (p : snaking) : json :=
  obj [("arrivaltolerance", JFloat (arrivaltolerance p)); ("multiarrivaltolerance", JFloat (multiarrivaltolerance p));
       ("snaxtimestep", JFloat (snaxtimestep p)); ("snaxdiststep", JFloat (snaxdiststep p));
       ("initboundary", JInt (initboundary p)); ("maxsteps", JInt (maxsteps p));
       ("spawnposition", JFloat (spawnposition p)); ("engine", JStr (engine p))].
Definition snaking_from (j : json) : outcome snaking :=
  do a <- at_key "arrivaltolerance" j; do a <- get_dbl a;
  do b <- at_key "multiarrivaltolerance" j; do b <- get_dbl b;
  do c <- at_key "snaxtimestep" j; do c <- get_dbl c;
  do d <- at_key "snaxdiststep" j; do d <- get_dbl d;
  do e <- at_key "initboundary" j; do e <- get_int e;
  do f <- at_key "maxsteps" j; do f <- get_int f;
  do g <- at_key "spawnposition" j; do g <- get_dbl g;
  do h <- at_key "engine" j; do h <- get_str h;
  Ok (mkSnaking a b c d e f g h).

(** rsvs, 233-248. *)
Record rsvs := mkRsvs {
  solveralgorithm : Z; cstfill : filltype dbl; filefill : filltype string; makefill : filltype string }.
Definition rsvs_to (p : rsvs) : json :=
  obj [("solveralgorithm", JInt (solveralgorithm p)); ("cstfill", fill_to JFloat (cstfill p));
       ("filefill", fill_to JStr (filefill p)); ("makefill", fill_to JStr (makefill p))].
Definition rsvs_from (j : json) : outcome rsvs :=
  do a <- at_key "solveralgorithm" j; do a <- get_int a;
  do b <- at_key "cstfill" j; do b <- fill_from get_dbl b;
  do c <- at_key "filefill" j; do c <- fill_from get_str c;
  do d <- at_key "makefill" j; do d <- fill_from get_str d;
  Ok (mkRsvs a b c d).

(** grid, 269-283. *)
Record grid := mkGrid {
  domain : (dbl * dbl) * (dbl * dbl) * (dbl * dbl); gvoxel : voxel; gvoronoi : voronoi;
  physdomain : (dbl * dbl) * (dbl * dbl) * (dbl * dbl); activegrid : string }.
Definition grid_to (p : grid) : json :=
  obj [("domain", three (two JFloat JFloat) (domain p)); ("voxel", voxel_to (gvoxel p));
       ("voronoi", voronoi_to (gvoronoi p)); ("physdomain", three (two JFloat JFloat) (physdomain p));
       ("activegrid", JStr (activegrid p))].
Definition grid_from (j : json) : outcome grid :=
  do a <- at_key "domain" j; do a <- get_three (get_two get_dbl get_dbl) a;
  do b <- at_key "voxel" j; do b <- voxel_from b;
  do c <- at_key "voronoi" j; do c <- voronoi_from c;
  do d <- at_key "physdomain" j; do d <- get_three (get_two get_dbl get_dbl) d;
  do e <- at_key "activegrid" j; do e <- get_str e;
  Ok (mkGrid a b c d e).

(** ioin, 310-325. *)
Record ioin := mkIoin { snakemeshname : string; volumeshname : string; snakefile : string; casename : string }.
Definition ioin_to (p : ioin) : json :=
  obj [("snakemeshname", JStr (snakemeshname p)); ("volumeshname", JStr (volumeshname p));
       ("snakefile", JStr (snakefile p)); ("casename", JStr (casename p))].
Definition ioin_from (j : json) : outcome ioin :=
  do a <- at_key "snakemeshname" j; do a <- get_str a;
  do b <- at_key "volumeshname" j; do b <- get_str b;
  do c <- at_key "snakefile" j; do c <- get_str c;
  do d <- at_key "casename" j; do d <- get_str d;
  Ok (mkIoin a b c d).

(** ioout, 380-409. *)
Record ioout := mkIoout {
  pathoutdir : string; pathpattern : string; basenamepattern : string; basenameoutdir : string;
  outdir : string; pattern : string; redirectcout : bool; redirectcerr : bool;
  logginglvl : Z; outputlvl : Z; tecplot : outputtemplate }.
Definition ioout_to (p : ioout) : json :=
  obj [("pathoutdir", JStr (pathoutdir p)); ("pathpattern", JStr (pathpattern p));
       ("basenamepattern", JStr (basenamepattern p)); ("basenameoutdir", JStr (basenameoutdir p));
       ("outdir", JStr (outdir p)); ("pattern", JStr (pattern p));
       ("redirectcout", JBool (redirectcout p)); ("redirectcerr", JBool (redirectcerr p));
       ("logginglvl", JInt (logginglvl p)); ("outputlvl", JInt (outputlvl p));
       ("tecplot", template_to (tecplot p))].
Definition ioout_from (j : json) : outcome ioout :=
  do a <- at_key "pathoutdir" j; do a <- get_str a;
  do b <- at_key "pathpattern" j; do b <- get_str b;
  do c <- at_key "basenamepattern" j; do c <- get_str c;
  do d <- at_key "basenameoutdir" j; do d <- get_str d;
  do e <- at_key "outdir" j; do e <- get_str e;
  do f <- at_key "pattern" j; do f <- get_str f;
  do g <- at_key "redirectcout" j; do g <- get_bool g;
  do h <- at_key "redirectcerr" j; do h <- get_bool h;
  do i <- at_key "logginglvl" j; do i <- get_int i;
  do k <- at_key "outputlvl" j; do k <- get_int k;
  do l <- at_key "tecplot" j; do l <- template_from l;
  Ok (mkIoout a b c d e f g h i k l).

(** files, 429-444. *)
Record files := mkFiles {
  fioin : ioin; fioout : ioout; appcasename2outdir : bool; exportconfig : list (string * string) }.
Definition files_to (p : files) : json :=
  obj [("ioin", ioin_to (fioin p)); ("ioout", ioout_to (fioout p));
       ("appcasename2outdir", JBool (appcasename2outdir p));
       ("exportconfig", many (two JStr JStr) (exportconfig p))].
Definition files_from (j : json) : outcome files :=
  do a <- at_key "ioin" j; do a <- ioin_from a;
  do b <- at_key "ioout" j; do b <- ioout_from b;
  do c <- at_key "appcasename2outdir" j; do c <- get_bool c;
  do d <- at_key "exportconfig" j; do d <- get_list (get_two get_str get_str) d;
  Ok (mkFiles a b c d).

(** dev::rsvseps, 492-509 (the last key is written and read twice). *)
Record rsvseps := mkEps { eps_edge : dbl; eps_surf : dbl; eps_volu : dbl; eps_centre : dbl; eps_centre2 : dbl }.
Definition eps_to (p : rsvseps) : json :=
  obj [("rsvsmath_automatic_eps_edge", JFloat (eps_edge p)); ("rsvsmath_automatic_eps_surf", JFloat (eps_surf p));
       ("rsvsmath_automatic_eps_volu", JFloat (eps_volu p)); ("rsvsmath_automatic_eps_centre", JFloat (eps_centre p));
       ("rsvsmath_automatic_eps_centre2", JFloat (eps_centre2 p)); ("rsvsmath_automatic_eps_centre2", JFloat (eps_centre2 p))].
Definition eps_from (j : json) : outcome rsvseps :=
  do a <- at_key "rsvsmath_automatic_eps_edge" j; do a <- get_dbl a;
  do b <- at_key "rsvsmath_automatic_eps_surf" j; do b <- get_dbl b;
  do c <- at_key "rsvsmath_automatic_eps_volu" j; do c <- get_dbl c;
  do d <- at_key "rsvsmath_automatic_eps_centre" j; do d <- get_dbl d;
  do e <- at_key "rsvsmath_automatic_eps_centre2" j; do e <- get_dbl e;
  Ok (mkEps a b c d e).

(** dev::devparam, 521-540. *)
Record devparam := mkDev {
  limitlagrangian : dbl; mindesvarsparse : Z; surfcentrejacobian : bool; surfcentrehessian : bool;
  conserveShape : bool; smoothstepmethod : string; rsvsepsilons : rsvseps }.
Definition dev_to (p : devparam) : json :=
  obj [("limitlagrangian", JFloat (limitlagrangian p)); ("mindesvarsparse", JInt (mindesvarsparse p));
       ("surfcentrejacobian", JBool (surfcentrejacobian p)); ("surfcentrehessian", JBool (surfcentrehessian p));
       ("snaxDistanceLimit_conserveShape", JBool (conserveShape p));
       ("smoothstepmethod", JStr (smoothstepmethod p)); ("rsvsepsilons", eps_to (rsvsepsilons p))].
Definition dev_from (j : json) : outcome devparam :=
  do a <- at_key "limitlagrangian" j; do a <- get_dbl a;
  do b <- at_key "mindesvarsparse" j; do b <- get_int b;
  do c <- at_key "surfcentrejacobian" j; do c <- get_bool c;
  do d <- at_key "surfcentrehessian" j; do d <- get_bool d;
  do e <- at_key "snaxDistanceLimit_conserveShape" j; do e <- get_bool e;
  do f <- at_key "smoothstepmethod" j; do f <- get_str f;
  do g <- at_key "rsvsepsilons" j; do g <- eps_from g;
  Ok (mkDev a b c d e f g).

(** parameters, 456-477.  [access] is whether RSVS_ACCESS_DEVELOPMENT_PARAMETERS is
    defined; without it the development parameters are neither written nor
    read. *)
Record parameters := mkParam { prsvs : rsvs; psnak : snaking; pgrid : grid; pfiles : files; pdev : devparam }.
Definition to_json (access : bool) (p : parameters) : json :=
  obj (([("rsvs", rsvs_to (prsvs p)); ("snak", snaking_to (psnak p)); ("grid", grid_to (pgrid p));
        ("files", files_to (pfiles p))] ++ if access then [("dev", dev_to (pdev p))] else [])%list).
(** What from_json has assigned when it throws half way is not modelled. *)
Definition from_json (access : bool) (j : json) (p : parameters) : outcome parameters :=
  do a <- at_key "rsvs" j; do a <- rsvs_from a;
  do b <- at_key "snak" j; do b <- snaking_from b;
  do c <- at_key "grid" j; do c <- grid_from c;
  do d <- at_key "files" j; do d <- files_from d;
  do e <- (if access then do e <- at_key "dev" j; dev_from e else Ok (pdev p));
  Ok (mkParam a b c d e).

(** ** io, 546-618 *)
(** What json::dump then a parse give: numbers that are not finite become null. *)
Fixpoint printed (j : json) : json :=
  match j with
  | JFloat Nonfin => JNull
  | JArr l => JArr (map printed l)
  | JObj m => JObj (map (fun e => (fst e, printed (snd e))) m)
  | v => v
  end.
(** read, 546-572. *)
Definition read (access : bool) (file : json) (p : parameters) : outcome parameters :=
  let j := match unflatten file with Ok j => j | _ => file end in
  do j <- flatupdate (to_json access p) j false;
  from_json access j p.
(** write, 574-586. *)
Definition write (access : bool) (p : parameters) : json := printed (to_json access p).
(** readflat, 588-605. *)
Definition readflat (access : bool) (file : json) (p : parameters) : outcome parameters :=
  do j <- flatupdate (to_json access p) file true;
  from_json access j p.
(** writeflat, 606-618. *)
Definition writeflat (access : bool) (p : parameters) : json := printed (flatten (to_json access p)).

(** updatefromstring, 633-697.  [stoi] and [stod] are the library functions (they
    throw on text that is not a number); the boolean is read by the stream
    operator of json, so [parse] is the JSON parser. *)
Section Update.
Variables (stoi : string -> outcome Z) (stod : string -> outcome dbl) (parse : string -> outcome json).
(** 642-693 for one pair; the state is the flat object and numFail. *)
Definition update_one (sep : string) (keyVal : string) (st : list (string * json) * Z) : outcome (list (string * json) * Z) :=
  let '(m, numFail) := st in
  match String.index 0 sep keyVal with
  | None => Ok (m, numFail + 1)
  | Some pos =>
      let key := String.substring 0 pos keyVal in
      if (String.length keyVal <? pos + 1)%nat then Throw
      else
      let val := String.substring (pos + 1) (String.length keyVal - (pos + 1)) keyVal in
      match lookup m key with
      | None => Ok (insert m key JNull, numFail + 1)
      | Some JNull => Ok (m, numFail + 1)
      | Some (JStr _) => Ok (insert m key (JStr val), numFail)
      | Some (JInt _) => do z <- stoi val; Ok (insert m key (JInt z), numFail)
      | Some (JFloat _) => do d <- stod val; Ok (insert m key (JFloat d), numFail)
      | Some (JBool _) => do b <- parse val; Ok (insert m key b, numFail)
      | Some _ => Ok (m, numFail + 1)
      end
  end.
Fixpoint update_strings (sep : string) (l : list string) (st : list (string * json) * Z) : outcome (list (string * json) * Z) :=
  match l with
  | [] => Ok st
  | s :: r => do st <- update_one sep s st; update_strings sep r st
  end.
Definition updatefromstring (access : bool) (sep : string) (l : list string) (p : parameters) : outcome (parameters * Z) :=
  match flatten (to_json access p) with
  | JObj m =>
      do (m1, numFail) <- update_strings sep l (m, 0);
      do j <- unflatten (JObj m1);
      do p1 <- from_json access j p;
      Ok (p1, numFail)
  | _ => Throw
  end.
End Update.
