(** The configuration records as JSON values. *)
From Coq Require Import String Ascii ZArith QArith List Bool Lia Sorted.
From Verif Require Import Base Mesh Config SpecConfig JsonProofs JsonBuildProofs ConfigTreeProofs.
Import ListNotations.
Set Implicit Arguments.
Open Scope Z_scope.
Open Scope list_scope.

(** ** Members in order *)
Lemma template_to_eq p : template_to p = JObj [("directory"%string, JStr (directory p)); ("filenameregex"%string, JStr (filenameregex p)); ("loglvlspecialisation"%string, many (two JInt JStr) (loglvlspecialisation p)); ("templateregex"%string, JStr (templateregex p))]. Proof. reflexivity. Qed.
Lemma voxel_to_eq p : voxel_to p = JObj [("gridsizebackground"%string, three JInt (gridsizebackground p)); ("gridsizesnake"%string, three JInt (gridsizesnake p))]. Proof. reflexivity. Qed.
Lemma voronoi_to_eq p : voronoi_to p = JObj [("distancebox"%string, JFloat (distancebox p)); ("inputpoints"%string, many JFloat (inputpoints p)); ("pointfile"%string, JStr (pointfile p)); ("snakecoarseness"%string, JFloat (snakecoarseness p)); ("vorosnakelayers"%string, JInt (vorosnakelayers p))]. Proof. reflexivity. Qed.
Lemma snaking_to_eq p : snaking_to p = JObj [("arrivaltolerance"%string, JFloat (arrivaltolerance p)); ("engine"%string, JStr (engine p)); ("initboundary"%string, JInt (initboundary p)); ("maxsteps"%string, JInt (maxsteps p)); ("multiarrivaltolerance"%string, JFloat (multiarrivaltolerance p)); ("snaxdiststep"%string, JFloat (snaxdiststep p)); ("snaxtimestep"%string, JFloat (snaxtimestep p)); ("spawnposition"%string, JFloat (spawnposition p))]. Proof. reflexivity. Qed.
Lemma rsvs_to_eq p : rsvs_to p = JObj [("cstfill"%string, fill_to JFloat (cstfill p)); ("filefill"%string, fill_to JStr (filefill p)); ("makefill"%string, fill_to JStr (makefill p)); ("solveralgorithm"%string, JInt (solveralgorithm p))]. Proof. reflexivity. Qed.
Lemma grid_to_eq p : grid_to p = JObj [("activegrid"%string, JStr (activegrid p)); ("domain"%string, three (two JFloat JFloat) (domain p)); ("physdomain"%string, three (two JFloat JFloat) (physdomain p)); ("voronoi"%string, voronoi_to (gvoronoi p)); ("voxel"%string, voxel_to (gvoxel p))]. Proof. reflexivity. Qed.
Lemma ioin_to_eq p : ioin_to p = JObj [("casename"%string, JStr (casename p)); ("snakefile"%string, JStr (snakefile p)); ("snakemeshname"%string, JStr (snakemeshname p)); ("volumeshname"%string, JStr (volumeshname p))]. Proof. reflexivity. Qed.
Lemma ioout_to_eq p : ioout_to p = JObj [("basenameoutdir"%string, JStr (basenameoutdir p)); ("basenamepattern"%string, JStr (basenamepattern p)); ("logginglvl"%string, JInt (logginglvl p)); ("outdir"%string, JStr (outdir p)); ("outputlvl"%string, JInt (outputlvl p)); ("pathoutdir"%string, JStr (pathoutdir p)); ("pathpattern"%string, JStr (pathpattern p)); ("pattern"%string, JStr (pattern p)); ("redirectcerr"%string, JBool (redirectcerr p)); ("redirectcout"%string, JBool (redirectcout p)); ("tecplot"%string, template_to (tecplot p))]. Proof. reflexivity. Qed.
Lemma files_to_eq p : files_to p = JObj [("appcasename2outdir"%string, JBool (appcasename2outdir p)); ("exportconfig"%string, many (two JStr JStr) (exportconfig p)); ("ioin"%string, ioin_to (fioin p)); ("ioout"%string, ioout_to (fioout p))]. Proof. reflexivity. Qed.
Lemma eps_to_eq p : eps_to p = JObj [("rsvsmath_automatic_eps_centre"%string, JFloat (eps_centre p)); ("rsvsmath_automatic_eps_centre2"%string, JFloat (eps_centre2 p)); ("rsvsmath_automatic_eps_edge"%string, JFloat (eps_edge p)); ("rsvsmath_automatic_eps_surf"%string, JFloat (eps_surf p)); ("rsvsmath_automatic_eps_volu"%string, JFloat (eps_volu p))]. Proof. reflexivity. Qed.
Lemma dev_to_eq p : dev_to p = JObj [("limitlagrangian"%string, JFloat (limitlagrangian p)); ("mindesvarsparse"%string, JInt (mindesvarsparse p)); ("rsvsepsilons"%string, eps_to (rsvsepsilons p)); ("smoothstepmethod"%string, JStr (smoothstepmethod p)); ("snaxDistanceLimit_conserveShape"%string, JBool (conserveShape p)); ("surfcentrehessian"%string, JBool (surfcentrehessian p)); ("surfcentrejacobian"%string, JBool (surfcentrejacobian p))]. Proof. reflexivity. Qed.
Lemma fill_to_eq T (f : T -> json) p : fill_to f p = JObj [("active"%string, JBool (active p)); ("fill"%string, f (fill p))]. Proof. reflexivity. Qed.
Lemma to_json_eq access p : to_json access p = JObj ((if access then [("dev"%string, dev_to (pdev p))] else []) ++
  [("files"%string, files_to (pfiles p)); ("grid"%string, grid_to (pgrid p)); ("rsvs"%string, rsvs_to (prsvs p)); ("snak"%string, snaking_to (psnak p))]).
Proof. destruct access; reflexivity. Qed.

(** ** Well formed *)
Lemma insert_all_from A (n m : list (string * A)) k v : In (k, v) (insert_all m n) -> In (k, v) m \/ In (k, v) n.
Proof.
  revert m. induction n as [|[k0 v0] n IH]; intros m H; [left; exact H|]. unfold insert_all in H. simpl in H.
  fold (insert_all (insert m k0 v0) n) in H. destruct (IH _ H) as [H'|H']; [|right; right; exact H'].
  apply insert_In in H'. destruct H' as [[-> ->]|H']; [right; left; reflexivity|left; exact H'].
Qed.
Lemma good_objs l : (forall k x, In (k, x) l -> k <> "0"%string /\ good x) -> good (obj l).
Proof.
  intros H. apply good_obj; [apply insert_all_sorted; constructor|]. intros k x Hin. apply insert_all_from in Hin.
  destruct Hin as [[]|Hin]. apply H. exact Hin.
Qed.
Lemma good_two A B (f : A -> json) (g : B -> json) p : (forall a, good (f a)) -> (forall b, good (g b)) -> good (two f g p).
Proof. intros H1 H2. apply good_arr. intros x [<-|[<-|[]]]; auto. Qed.
Lemma good_three A (f : A -> json) p : (forall a, good (f a)) -> good (three f p).
Proof. destruct p as [[a b] c]. intros H1. apply good_arr. intros x [<-|[<-|[<-|[]]]]; auto. Qed.
Lemma good_many A (f : A -> json) p : (forall a, good (f a)) -> good (many f p).
Proof. intros H1. apply good_arr. intros x Hx. apply in_map_iff in Hx. destruct Hx as [y [<- _]]. auto. Qed.
Lemma good_str s : good (JStr s). Proof. constructor. reflexivity. Qed.
Lemma good_int s : good (JInt s). Proof. constructor. reflexivity. Qed.
Lemma good_float s : good (JFloat s). Proof. constructor. reflexivity. Qed.
Lemma good_bool s : good (JBool s). Proof. constructor. reflexivity. Qed.
#[local] Hint Resolve good_two good_three good_many good_str good_int good_float good_bool : good.
Ltac members := let H := fresh in intros ? ? H; cbn [In app] in H;
  repeat (destruct H as [H|H]; [injection H as <- <-; split; [discriminate|auto with good]|]); destruct H.
Lemma good_fill T (f : T -> json) p : (forall x, good (f x)) -> good (fill_to f p).
Proof. intros Hf. apply good_objs. members. Qed.
#[local] Hint Resolve good_fill : good.
Lemma good_template p : good (template_to p). Proof. apply good_objs. members. Qed.
Lemma good_voxel p : good (voxel_to p). Proof. apply good_objs. members. Qed.
Lemma good_voronoi p : good (voronoi_to p). Proof. apply good_objs. members. Qed.
Lemma good_snaking p : good (snaking_to p). Proof. apply good_objs. members. Qed.
Lemma good_rsvs p : good (rsvs_to p). Proof. apply good_objs. members. Qed.
Lemma good_ioin p : good (ioin_to p). Proof. apply good_objs. members. Qed.
Lemma good_eps p : good (eps_to p). Proof. apply good_objs. members. Qed.
#[local] Hint Resolve good_template good_voxel good_voronoi good_snaking good_rsvs good_ioin good_eps : good.
Lemma good_grid p : good (grid_to p). Proof. apply good_objs. members. Qed.
Lemma good_ioout p : good (ioout_to p). Proof. apply good_objs. members. Qed.
#[local] Hint Resolve good_grid good_ioout : good.
Lemma good_files p : good (files_to p). Proof. apply good_objs. members. Qed.
Lemma good_dev p : good (dev_to p). Proof. apply good_objs. members. Qed.
#[local] Hint Resolve good_files good_dev : good.
Lemma good_param access p : good (to_json access p).
Proof. unfold to_json. destruct access; apply good_objs; members. Qed.

(** ** No empty parts *)
Definition noempty (j : json) : Prop := forall p, ~ empty_at j p.
Definition cover_empty (A T : json) : Prop := forall p, empty_at A p -> inside T (toks p).
Lemma ne_value v : primitive v = true -> noempty v.
Proof. intros H p E. inversion E; subst; discriminate. Qed.
Lemma ne_arr l : l <> [] -> (forall x, In x l -> noempty x) -> noempty (JArr l).
Proof. intros H1 H2 p E. inversion E; subst; [congruence|]. eapply H2; eauto. eapply nth_error_In; eauto. Qed.
Lemma ne_obj m : m <> [] -> (forall k x, In (k, x) m -> noempty x) -> noempty (JObj m).
Proof. intros H1 H2 p E. inversion E; subst; [congruence|]. eapply H2; eauto. Qed.
Lemma ce_value v T : primitive v = true -> cover_empty v T.
Proof. intros H p E. inversion E; subst; discriminate. Qed.
Lemma ce_noempty v T : noempty v -> cover_empty v T.
Proof. intros H p E. exfalso. eapply H; eauto. Qed.
Lemma ce_arr l l' : l' <> [] -> (forall x, In x l -> noempty x) -> cover_empty (JArr l) (JArr l').
Proof.
  intros H1 H2 p E. inversion E; subst.
  - destruct l'; [congruence|]. constructor.
  - exfalso. eapply H2; eauto. eapply nth_error_In; eauto.
Qed.
Lemma ce_obj m m' : m' <> [] -> (forall k x, In (k, x) m -> exists y, In (k, y) m' /\ cover_empty x y) -> cover_empty (JObj m) (JObj m').
Proof.
  intros H1 H2 p E. inversion E as [|E1 E2| |? k x q Hin He]; subst.
  - destruct m'; [congruence|]. constructor.
  - destruct (H2 k x Hin) as [y [Hy Hc]]. cbn. econstructor; eauto.
Qed.
Lemma ne_str s : noempty (JStr s). Proof. apply ne_value. reflexivity. Qed.
Lemma ne_int s : noempty (JInt s). Proof. apply ne_value. reflexivity. Qed.
Lemma ne_float s : noempty (JFloat s). Proof. apply ne_value. reflexivity. Qed.
Lemma ne_bool s : noempty (JBool s). Proof. apply ne_value. reflexivity. Qed.
Lemma ne_two A B (f : A -> json) (g : B -> json) p : (forall a, noempty (f a)) -> (forall b, noempty (g b)) -> noempty (two f g p).
Proof. intros H1 H2. apply ne_arr; [discriminate|]. intros x [<-|[<-|[]]]; auto. Qed.
Lemma ne_three A (f : A -> json) p : (forall a, noempty (f a)) -> noempty (three f p).
Proof. destruct p as [[a b] c]. intros H1. apply ne_arr; [discriminate|]. intros x [<-|[<-|[<-|[]]]]; auto. Qed.
Lemma ne_many A (f : A -> json) p : p <> [] -> (forall a, noempty (f a)) -> noempty (many f p).
Proof. intros H H1. apply ne_arr; [destruct p; [congruence|discriminate]|]. intros x Hx. apply in_map_iff in Hx. destruct Hx as [y [<- _]]. auto. Qed.
#[local] Hint Resolve ne_two ne_three ne_many ne_str ne_int ne_float ne_bool : ne.
Ltac nes := apply ne_obj; [discriminate|]; let H := fresh in intros ? ? H; cbn [In app] in H;
  repeat (destruct H as [H|H]; [injection H as <- <-; auto with ne|]); destruct H.
Lemma ne_fill T (f : T -> json) p : (forall x, noempty (f x)) -> noempty (fill_to f p).
Proof. intros Hf. rewrite fill_to_eq. nes. Qed.
#[local] Hint Resolve ne_fill : ne.
Lemma ne_template p : loglvlspecialisation p <> [] -> noempty (template_to p). Proof. intros. rewrite template_to_eq. nes. Qed.
Lemma ne_voxel p : noempty (voxel_to p). Proof. rewrite voxel_to_eq. nes. Qed.
Lemma ne_voronoi p : inputpoints p <> [] -> noempty (voronoi_to p). Proof. intros. rewrite voronoi_to_eq. nes. Qed.
Lemma ne_snaking p : noempty (snaking_to p). Proof. rewrite snaking_to_eq. nes. Qed.
Lemma ne_rsvs p : noempty (rsvs_to p). Proof. rewrite rsvs_to_eq. nes. Qed.
Lemma ne_ioin p : noempty (ioin_to p). Proof. rewrite ioin_to_eq. nes. Qed.
Lemma ne_eps p : noempty (eps_to p). Proof. rewrite eps_to_eq. nes. Qed.
#[local] Hint Resolve ne_template ne_voxel ne_voronoi ne_snaking ne_rsvs ne_ioin ne_eps : ne.
Lemma ne_grid p : inputpoints (gvoronoi p) <> [] -> noempty (grid_to p). Proof. intros. rewrite grid_to_eq. nes. Qed.
Lemma ne_ioout p : loglvlspecialisation (tecplot p) <> [] -> noempty (ioout_to p). Proof. intros. rewrite ioout_to_eq. nes. Qed.
#[local] Hint Resolve ne_grid ne_ioout : ne.
Lemma ne_files p : loglvlspecialisation (tecplot (fioout p)) <> [] -> exportconfig p <> [] -> noempty (files_to p).
Proof. intros. rewrite files_to_eq. nes. Qed.
Lemma ne_dev p : noempty (dev_to p). Proof. rewrite dev_to_eq. nes. Qed.
#[local] Hint Resolve ne_files ne_dev : ne.
Lemma ne_param access p : lists_filled p -> noempty (to_json access p).
Proof. intros [H1 [H2 H3]]. rewrite to_json_eq. destruct access; cbn [app]; nes. Qed.

Ltac ces tac := apply ce_obj; [discriminate|]; let H := fresh in intros ? ? H; cbn [In app] in H;
  repeat (destruct H as [H|H]; [injection H as <- <-; eexists; split; [|first [solve [apply ce_noempty; auto with ne]|tac]]; cbn [In app]; tauto|]); destruct H.
Lemma ce_param access p q : lists_filled q -> cover_empty (to_json access p) (to_json access q).
Proof.
  intros [H1 [H2 H3]].
  assert (C1 : cover_empty (many JFloat (inputpoints (gvoronoi (pgrid p)))) (many JFloat (inputpoints (gvoronoi (pgrid q))))).
  { apply ce_arr; [destruct (inputpoints (gvoronoi (pgrid q))); [congruence|discriminate]|]. intros x Hx. apply in_map_iff in Hx.
    destruct Hx as [y [<- _]]. auto with ne. }
  assert (C2 : cover_empty (many (two JInt JStr) (loglvlspecialisation (tecplot (fioout (pfiles p))))) (many (two JInt JStr) (loglvlspecialisation (tecplot (fioout (pfiles q)))))).
  { apply ce_arr; [destruct (loglvlspecialisation (tecplot (fioout (pfiles q)))); [congruence|discriminate]|]. intros x Hx. apply in_map_iff in Hx.
    destruct Hx as [y [<- _]]. auto with ne. }
  assert (C3 : cover_empty (many (two JStr JStr) (exportconfig (pfiles p))) (many (two JStr JStr) (exportconfig (pfiles q)))).
  { apply ce_arr; [destruct (exportconfig (pfiles q)); [congruence|discriminate]|]. intros x Hx. apply in_map_iff in Hx.
    destruct Hx as [y [<- _]]. auto with ne. }
  assert (C4 : cover_empty (voronoi_to (gvoronoi (pgrid p))) (voronoi_to (gvoronoi (pgrid q)))) by (rewrite !voronoi_to_eq; ces ltac:(exact C1)).
  assert (C5 : cover_empty (template_to (tecplot (fioout (pfiles p)))) (template_to (tecplot (fioout (pfiles q))))) by (rewrite !template_to_eq; ces ltac:(exact C2)).
  assert (C6 : cover_empty (ioout_to (fioout (pfiles p))) (ioout_to (fioout (pfiles q)))) by (rewrite !ioout_to_eq; ces ltac:(exact C5)).
  assert (C7 : cover_empty (files_to (pfiles p)) (files_to (pfiles q))) by (rewrite !files_to_eq; ces ltac:(first [exact C3|exact C6])).
  assert (C8 : cover_empty (grid_to (pgrid p)) (grid_to (pgrid q))) by (rewrite !grid_to_eq; ces ltac:(exact C4)).
  rewrite !to_json_eq. destruct access; cbn [app]; ces ltac:(first [exact C7|exact C8]).
Qed.
Lemma norm_noempty j : noempty j -> norm j = j.
Proof.
  induction j as [v Hp|l IH|m IH] using json_induction; intros N.
  - apply norm_value. exact Hp.
  - destruct l as [|x l]; [exfalso; apply (N []); constructor|]. change (JArr (map norm (x :: l)) = JArr (x :: l)). f_equal.
    rewrite <- (map_id (x :: l)) at 2. apply map_ext_in. intros y Hy. apply (IH y Hy). intros p He.
    apply In_nth_error in Hy. destruct Hy as [i Hi]. apply (N (Elem i :: p)). econstructor; eauto.
  - destruct m as [|e m]; [exfalso; apply (N []); constructor|].
    change (JObj (map (fun e => (fst e, norm (snd e))) (e :: m)) = JObj (e :: m)). f_equal.
    rewrite <- (map_id (e :: m)) at 2. apply map_ext_in. intros [k y] Hy. cbn [fst snd]. f_equal. apply (IH k y Hy). intros p He.
    apply (N (Key k :: p)). econstructor; eauto.
Qed.

(** ** Reading what was written *)
Definition ints_ok (j : json) : Prop := forall p z, leaf j p (JInt z) -> wrap32 z = z.
Lemma io_int z : ints_ok (JInt z) -> wrap32 z = z.
Proof. intros H. apply (H []). constructor. reflexivity. Qed.
Lemma io_arr l i x : ints_ok (JArr l) -> nth_error l i = Some x -> ints_ok x.
Proof. intros H Hi p z Hl. apply (H (Elem i :: p)). econstructor; eauto. Qed.
Lemma io_obj m k x : ints_ok (JObj m) -> In (k, x) m -> ints_ok x.
Proof. intros H Hi p z Hl. apply (H (Key k :: p)). econstructor; eauto. Qed.
Lemma three_back A (f : A -> json) (g : json -> outcome A) p : (forall a, ints_ok (f a) -> g (f a) = Ok a) -> ints_ok (three f p) -> get_three g (three f p) = Ok p.
Proof.
  destruct p as [[a b] c]. intros H I. unfold three in *.
  assert (I0 := @io_arr _ O _ I eq_refl). assert (I1 := @io_arr _ 1%nat _ I eq_refl). assert (I2 := @io_arr _ 2%nat _ I eq_refl).
  unfold get_three. cbn [at_elem nth_error bind]. rewrite (H _ I0). cbn [bind]. rewrite (H _ I1). cbn [bind]. rewrite (H _ I2). reflexivity.
Qed.
Lemma two_back A B (f : A -> json) (g : json -> outcome A) (f' : B -> json) (g' : json -> outcome B) p :
  (forall a, ints_ok (f a) -> g (f a) = Ok a) -> (forall a, ints_ok (f' a) -> g' (f' a) = Ok a) -> ints_ok (two f f' p) -> get_two g g' (two f f' p) = Ok p.
Proof.
  destruct p as [a b]. intros H H' I. unfold two in *. cbn [fst snd] in *.
  assert (I0 := @io_arr _ O _ I eq_refl). assert (I1 := @io_arr _ 1%nat _ I eq_refl).
  unfold get_two. cbn [at_elem nth_error bind]. rewrite (H _ I0). cbn [bind]. rewrite (H' _ I1). reflexivity.
Qed.
Lemma many_back A (f : A -> json) (g : json -> outcome A) l : (forall a, ints_ok (f a) -> g (f a) = Ok a) -> ints_ok (many f l) -> get_list g (many f l) = Ok l.
Proof.
  intros H I. unfold many in *. cbn [get_list]. induction l as [|a l IH]; [reflexivity|]. cbn [map omap_list].
  rewrite (H a); [|apply (@io_arr _ O _ I eq_refl)]. cbn [bind]. rewrite IH; [reflexivity|].
  intros p z Hl. inversion Hl; subst; try discriminate. apply (I (Elem (S i) :: p0)). econstructor; eauto.
Qed.
Lemma int_back z : ints_ok (JInt z) -> get_int (JInt z) = Ok z. Proof. intros H. cbn. rewrite (io_int H). reflexivity. Qed.
Lemma dbl_back d : ints_ok (JFloat d) -> get_dbl (JFloat d) = Ok d. Proof. reflexivity. Qed.
Lemma str_back d : ints_ok (JStr d) -> get_str (JStr d) = Ok d. Proof. reflexivity. Qed.
Lemma bool_back d : ints_ok (JBool d) -> get_bool (JBool d) = Ok d. Proof. reflexivity. Qed.
#[local] Hint Resolve three_back two_back many_back int_back dbl_back str_back bool_back : back.
Ltac member I := match type of I with ints_ok (JObj ?m) => eapply (@io_obj m); [exact I|cbn [In app]; tauto] end.
Ltac forth := cbn [bind at_key lookup String.eqb Ascii.eqb Bool.eqb].
Ltac back I := forth; repeat (
  first [rewrite int_back by (member I) | rewrite dbl_back by (member I) | rewrite str_back by (member I) | rewrite bool_back by (member I)
        | rewrite three_back; [|auto with back|member I] | rewrite two_back; [|auto with back|auto with back|member I]
        | rewrite many_back; [|auto with back|member I] ]; forth).
Lemma fill_back T (f : T -> json) g p : (forall x, ints_ok (f x) -> g (f x) = Ok x) -> ints_ok (fill_to f p) -> fill_from g (fill_to f p) = Ok p.
Proof.
  rewrite fill_to_eq. intros H I. unfold fill_from. back I. rewrite H by (member I). destruct p; reflexivity.
Qed.
Lemma template_back p : ints_ok (template_to p) -> template_from (template_to p) = Ok p.
Proof. rewrite template_to_eq. intros I. unfold template_from. back I. destruct p; reflexivity. Qed.
Lemma voxel_back p : ints_ok (voxel_to p) -> voxel_from (voxel_to p) = Ok p.
Proof. rewrite voxel_to_eq. intros I. unfold voxel_from. back I. destruct p; reflexivity. Qed.
Lemma voronoi_back p : ints_ok (voronoi_to p) -> voronoi_from (voronoi_to p) = Ok p.
Proof. rewrite voronoi_to_eq. intros I. unfold voronoi_from. back I. destruct p; reflexivity. Qed.
Lemma snaking_back p : ints_ok (snaking_to p) -> snaking_from (snaking_to p) = Ok p.
Proof. rewrite snaking_to_eq. intros I. unfold snaking_from. back I. destruct p; reflexivity. Qed.
Lemma rsvs_back p : ints_ok (rsvs_to p) -> rsvs_from (rsvs_to p) = Ok p.
Proof.
  rewrite rsvs_to_eq. intros I. unfold rsvs_from. back I.
  repeat (rewrite fill_back; [|auto with back|member I]; cbn [bind at_key lookup String.eqb Ascii.eqb Bool.eqb]). destruct p; reflexivity.
Qed.
Lemma grid_back p : ints_ok (grid_to p) -> grid_from (grid_to p) = Ok p.
Proof.
  rewrite grid_to_eq. intros I. unfold grid_from. back I. rewrite voxel_back by (member I). back I.
  rewrite voronoi_back by (member I). back I. destruct p; reflexivity.
Qed.
Lemma ioin_back p : ints_ok (ioin_to p) -> ioin_from (ioin_to p) = Ok p.
Proof. rewrite ioin_to_eq. intros I. unfold ioin_from. back I. destruct p; reflexivity. Qed.
Lemma ioout_back p : ints_ok (ioout_to p) -> ioout_from (ioout_to p) = Ok p.
Proof. rewrite ioout_to_eq. intros I. unfold ioout_from. back I. rewrite template_back by (member I). destruct p; reflexivity. Qed.
Lemma files_back p : ints_ok (files_to p) -> files_from (files_to p) = Ok p.
Proof.
  rewrite files_to_eq. intros I. unfold files_from. back I. rewrite ioin_back by (member I). back I.
  rewrite ioout_back by (member I). back I. destruct p; reflexivity.
Qed.
Lemma eps_back p : ints_ok (eps_to p) -> eps_from (eps_to p) = Ok p.
Proof. rewrite eps_to_eq. intros I. unfold eps_from. back I. destruct p; reflexivity. Qed.
Lemma dev_back p : ints_ok (dev_to p) -> dev_from (dev_to p) = Ok p.
Proof. rewrite dev_to_eq. intros I. unfold dev_from. back I. rewrite eps_back by (member I). destruct p; reflexivity. Qed.
Lemma param_back access p p0 : ints_ok (to_json access p) ->
  from_json access (to_json access p) p0 = Ok (mkParam (prsvs p) (psnak p) (pgrid p) (pfiles p) (if access then pdev p else pdev p0)).
Proof.
  rewrite to_json_eq. intros I. unfold from_json. destruct access; cbn [app] in *; back I.
  all: rewrite rsvs_back by (member I); back I; rewrite snaking_back by (member I); back I;
    rewrite grid_back by (member I); back I; rewrite files_back by (member I); back I.
  - rewrite dev_back by (member I). reflexivity.
  - reflexivity.
Qed.
