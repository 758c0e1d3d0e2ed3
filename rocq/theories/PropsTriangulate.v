(** Triangulation of the surfaces of a mesh or of a snake (C89). *)
From Coq Require Import Reals List Lia ZArith Bool.
From Verif Require Import Base Containers Mesh Order Edit Family SpecMesh SpecOrder SpecFamily PropsFamily Calc Triangulate SpecTriangulate TriangulateProofs.
Set Implicit Arguments.
Open Scope Z_scope.

Lemma picks_selected A (all : list A) sub ss : picks all sub ss <-> selected all sub = Ok ss.
Proof.
  unfold picks, selected. destruct sub as [|p sub]; [split; [intros ->|intros [= <-]]; auto|]. generalize (p :: sub) as l. clear. intros l. split.
  - induction 1 as [|a b l r [H1 H2] Hr IH]; cbn; auto. rewrite (proj2 (at_Ok all a b)) by auto. cbn. rewrite IH. auto.
  - intros H. apply omap_list_inv in H. induction H as [|a b l r H Hr IH]; constructor; auto. apply at_Ok in H. auto.
Qed.

Lemma each_checked m typ ss : forall v st st', each_surface (fun s v => triangulate_surface m s typ v) ss v st = Ok st' ->
  forall s, In s ss -> (3 <= length (su_edgeind s))%nat.
Proof.
  induction ss as [|a ss IH]; intros v [tri tv] st' E s I; [easy|]. cbn [each_surface] in E.
  destruct (triangulate_surface m a typ (v + 1) (tri, tv)) as [st1| | |] eqn:E1; try discriminate. cbn [bind] in E.
  destruct I as [<-|I]; [|exact (IH _ _ _ E s I)]. unfold triangulate_surface in E1.
  destruct (ordered_verts m (su_edgeind a)) as [l| | |]; try discriminate. cbn [bind] in E1.
  destruct (Nat.ltb_spec (length (su_edgeind a)) 3); [discriminate|lia].
Qed.

Section Container.
Variables (m : mesh) (typ : Z) (sub : list Z) (t : tris).

(** The core: a loop that succeeds extends the triangulation. *)
Lemma container_extends A (all : list A) (f : A -> Z -> arr face * arr centre -> outcome (arr face * arr centre)) (look : A -> task -> Prop) ss xs :
  (forall a x v tri tv, look a x -> exists ts cs, f a v (tri, tv) = Ok (push_all fc_index tri ts, push_all cn_index tv cs) /\
     let '(l, parent, cells, infl) := x in adds (top tri) v l parent typ cells infl ts cs) ->
  In typ [t_mesh; t_snake; t_tri] -> picks all sub ss -> Forall2 look ss xs ->
  (forall r, (if negb (typ =? t_tri)
     then do l <- selected (surfs m) sub ; each_surface (fun s v => triangulate_surface m s typ v) l (top (t_vert t)) (r, t_vert t)
     else do l <- selected (t_surf t) sub ; each_surface (fun s v => triangulate_trisurf s typ v) l (top (t_vert t)) (r, t_vert t))
     = do l <- selected all sub ; each_surface f l (top (t_vert t)) (r, t_vert t)) ->
  exists t' parts, triangulate_container m typ sub t = Ok t' /\ extended typ parts t t' /\ Forall2 (done_for typ) xs parts.
Proof.
  intros Hf Ht Hp F2 Q. apply picks_selected in Hp.
  destruct (@each_adds A f typ look Hf ss xs F2 (top (t_vert t)) (tri_array typ t) (t_vert t)) as (parts & E & D & N & U & G).
  unfold triangulate_container. rewrite !Q, Hp. cbn [bind].
  set (a' := push_all fc_index (tri_array typ t) (concat (map fst parts))) in *. set (v' := push_all cn_index (t_vert t) (concat (map snd parts))) in *.
  assert (R := renumber_same (tri_array typ t) _ N). fold a' in R.
  assert (X : forall t', tri_array typ t' = a' -> t_vert t' = v' -> kept typ t t' -> extended typ parts t t').
  { intros t' Ea Ev K. split; auto. rewrite Ea, Ev. unfold a', v'. rewrite !push_all_items. split; auto. split; auto. split; auto. split; auto.
    split; [intros c I; apply G in I; lia|]. split; intros T; apply tidy_push_all; auto.
    - apply (numbered_NoDup N).
    - intros a I. apply (numbered_In (l := map fc_index (concat (map fst parts)))); auto. apply List.in_map; auto.
    - intros c I. apply G in I. lia. }
  assert (I3 : typ = t_mesh \/ typ = t_snake \/ typ = t_tri) by (destruct Ht as [<-|[<-|[<-|[]]]]; auto).
  clear Ht. unfold tri_array in *. destruct I3 as [-> | [-> | ->]]; cbn [t_mesh t_snake t_tri Z.eqb Pos.eqb] in *; rewrite E; cbn [bind fst snd]; rewrite R;
    eexists _, parts; (split; [reflexivity|]); (split; [|auto]); apply X; cbn; auto;
    (split; [intros z [<-|[<-|[<-|[]]]] Hz; auto; congruence|auto]).
Qed.

(** C89: every chosen surface of the mesh or of the snake, when it is a closed polygon,
    gets the triangles of its sides; nothing else changes. *)
Theorem C89_surfaces ss vss : NoDup (map ed_index (edges m)) -> typ = t_mesh \/ typ = t_snake ->
  picks (surfs m) sub ss -> Forall2 (outlined m) ss vss ->
  exists t' parts, triangulate_container m typ sub t = Ok t' /\ extended typ parts t t' /\
    length parts = length ss /\ forall i s vs p, nth_error ss i = Some s -> nth_error vss i = Some vs -> nth_error parts i = Some p -> surface_done typ s vs p.
Proof.
  intros U Ht Hp Ho. set (look := fun s (x : task) => exists vs, outlined m s vs /\ x = (map (pair typ) vs, su_index s, cells_for typ s, signs_for typ)).
  set (xs := map (fun sv : surf * list Z => (map (pair typ) (snd sv), su_index (fst sv), cells_for typ (fst sv), signs_for typ)) (combine ss vss)).
  destruct (@container_extends surf (surfs m) (fun s v => triangulate_surface m s typ v) look ss xs) as (t' & parts & E & X & D).
  - intros s x v tri tv (vs & O & ->). apply surface_adds; auto.
  - cbn. intuition.
  - auto.
  - unfold xs. clear - Ho. induction Ho as [|s vs ss vss H Hr IH]; cbn; constructor; auto. exists vs. auto.
  - intros r. destruct Ht as [->| ->]; reflexivity.
  - exists t', parts. split; auto. split; auto.
    assert (Lx : length xs = length ss). { unfold xs. rewrite map_length. clear - Ho. induction Ho; cbn; auto. }
    assert (Lp : length xs = length parts) by (clear - D; induction D; cbn; auto). split; [lia|].
    intros i s vs p Hs Hv Hq. assert (Hx : nth_error xs i = Some (map (pair typ) vs, su_index s, cells_for typ s, signs_for typ)).
    { unfold xs. rewrite nth_error_map. replace (nth_error (combine ss vss) i) with (Some (s, vs)); auto. clear - Hs Hv. revert vss i Hs Hv.
      induction ss as [|a ss IH]; intros [|b vss] [|i] Hs Hv; cbn in *; try discriminate; [congruence|]. apply IH; auto. }
    assert (K : done_for typ (map (pair typ) vs, su_index s, cells_for typ s, signs_for typ) p).
    { clear - D Hx Hq. revert i Hx Hq. induction D as [|x q xs ps H Hr IH]; intros [|i] Hx Hq; cbn in *; try discriminate; [|eapply IH; eauto].
      injection Hx as ->. injection Hq as ->. exact H. }
    destruct K as [F S]. split; auto. unfold cells_for, signs_for in S. destruct Ht as [->| ->]; cbn in S; split; intros; auto; discriminate.
Qed.
(** C89: the same for the parts of surfaces between the mesh and the snake. *)
Theorem C89_parts ss : typ = t_tri -> picks (t_surf t) sub ss -> (forall s, In s ss -> (3 <= length (ts_corners s))%nat) ->
  exists t' parts, triangulate_container m typ sub t = Ok t' /\ extended typ parts t t' /\
    length parts = length ss /\ forall i s p, nth_error ss i = Some s -> nth_error parts i = Some p ->
      fan_of (ts_corners s) (ts_index s) typ (fst p) (snd p) /\ signed (ts_volu s) [(-1)%R; 1%R] (fst p).
Proof.
  intros Et Hp H3. set (g := fun s => (ts_corners s, ts_index s, ts_volu s, [(-1)%R; 1%R]) : task).
  destruct (@container_extends trisf (t_surf t) (fun s v => triangulate_trisurf s typ v) (fun s x => (3 <= length (ts_corners s))%nat /\ x = g s) ss (map g ss)) as (t' & parts & E & X & D).
  - intros s x v tri tv (L & ->). apply trisurf_adds; auto.
  - cbn. auto.
  - auto.
  - clear - H3. induction ss as [|s ss IH]; cbn; constructor; auto with datatypes.
  - intros r. rewrite Et. reflexivity.
  - exists t', parts. split; auto. split; auto.
    assert (Lp : length (map g ss) = length parts) by (clear - D; induction D; cbn; auto). rewrite map_length in Lp. split; [lia|].
    intros i s p Hs Hq. assert (Hx : nth_error (map g ss) i = Some (g s)) by (rewrite nth_error_map, Hs; auto).
    clear - D Hx Hq. revert i Hx Hq. induction D as [|x q xs ps H Hr IH]; intros [|i] Hx Hq; cbn in *; try discriminate; [|eapply IH; eauto].
    injection Hx as ->. injection Hq as ->. exact H.
Qed.

(** C89: a call that returns has met no surface with fewer than three edges. *)
Theorem C89_refuses t' ss : typ = t_mesh \/ typ = t_snake -> triangulate_container m typ sub t = Ok t' -> picks (surfs m) sub ss ->
  forall s, In s ss -> (3 <= length (su_edgeind s))%nat.
Proof.
  intros Ht E Hp. apply picks_selected in Hp. unfold triangulate_container in E.
  destruct Ht as [-> | ->]; cbn [t_mesh t_snake t_tri Z.eqb Pos.eqb negb] in E; rewrite Hp in E; cbn [bind] in E;
    match type of E with context [each_surface ?f ?l ?v ?st] => destruct (each_surface f l v st) as [st'| | |] eqn:E1 end; try discriminate;
    eapply each_checked; eauto.
Qed.
(** C89: a type that is none of the three is refused. *)
Theorem C89_type : ~ In typ [t_mesh; t_snake; t_tri] -> triangulate_container m typ sub t = Throw.
Proof.
  intros N. unfold triangulate_container. destruct (Z.eqb_spec typ t_mesh); [subst; cbn in N; tauto|].
  destruct (Z.eqb_spec typ t_snake); [subst; cbn in N; tauto|]. destruct (Z.eqb_spec typ t_tri); [subst; cbn in N; tauto|]. auto.
Qed.
End Container.
Print Assumptions C89_surfaces.
Print Assumptions C89_parts.
Print Assumptions C89_refuses.
Print Assumptions C89_type.

Lemma outlines_exist m ss : (forall s, In s ss -> exists vs, outlined m s vs) -> exists vss, Forall2 (outlined m) ss vss.
Proof.
  induction ss as [|s ss IH]; intros H; [exists []; auto|]. destruct (H s) as (vs & O); [cbn; auto|].
  destruct IH as (vss & F); [intros; apply H; cbn; auto|]. exists (vs :: vss). auto.
Qed.
(** C89: TriangulateMesh takes exactly the surfaces between different cells of a parent
    when there is one. *)
Theorem C89_mesh m tr t : family_ready m tr -> NoDup (map ed_index (edges m)) ->
  (exists s, In s (surfs m) /\ between m tr s) -> (forall s, In s (surfs m) -> between m tr s -> exists vs, outlined m s vs) ->
  exists t' ss vss parts, triangulate_mesh m tr t = Ok t' /\ extended t_mesh parts t t' /\
    (forall s, In s ss <-> In s (surfs m) /\ between m tr s) /\ length parts = length ss /\ Forall2 (outlined m) ss vss /\
    forall i s vs p, nth_error ss i = Some s -> nth_error vss i = Some vs -> nth_error parts i = Some p -> surface_done t_mesh s vs p.
Proof.
  intros R U (s0 & I0 & B0) O. destruct (C45_positions R) as (sub & E & P). unfold triangulate_mesh. rewrite E. cbn [bind].
  assert (exists ss, picks (surfs m) sub ss /\ forall s, In s ss <-> In s (surfs m) /\ between m tr s) as (ss & Hp & Hs).
  { assert (K : forall l, (forall p, In p l -> In p sub) -> exists ss, Forall2 (fun p s => 0 <= p /\ nth_error (surfs m) (Z.to_nat p) = Some s) l ss).
    { induction l as [|p l IH]; intros H; [exists []; auto|]. destruct IH as (ss & F); [intros; apply H; cbn; auto|].
      destruct (proj1 (P p) (H p (or_introl eq_refl))) as (k & s & v0 & v1 & i & -> & N & _). exists (s :: ss). constructor; auto. split; [lia|]. rewrite Nat2Z.id. auto. }
    destruct (K sub) as (ss & F); auto. exists ss. split.
    - unfold picks. destruct sub as [|p sub']; auto. exfalso. apply In_nth_error in I0 as (k & Nk). destruct B0 as (v0 & v1 & i & S & B).
      assert (In (Z.of_nat k) []) by (apply P; exists k, s0, v0, v1, i; auto). easy.
    - intros s. split.
      + intros I. apply In_nth_error in I as (j & Nj).
        assert (exists p, In p sub /\ 0 <= p /\ nth_error (surfs m) (Z.to_nat p) = Some s) as (p & Ip & P0 & Np).
        { clear - F Nj. revert j Nj. induction F as [|p a l r H Hr IH]; intros [|j] Nj; cbn in Nj; try discriminate.
          - injection Nj as ->. exists p. cbn. auto.
          - destruct (IH j Nj) as (q & Iq & Q). exists q. cbn. auto. }
        apply P in Ip as (k & s' & v0 & v1 & i & -> & N & S & L & A). rewrite Nat2Z.id in Np. assert (s' = s) as -> by congruence.
        split; [eapply nth_error_In; eauto|]. exists v0, v1, i. auto.
      + intros (I & v0 & v1 & i & S & L & A). apply In_nth_error in I as (k & Nk).
        assert (Ip : In (Z.of_nat k) sub) by (apply P; exists k, s, v0, v1, i; auto).
        clear - F Ip Nk. induction F as [|p a l r H Hr IH]; [easy|]. destruct Ip as [->|Ip]; [|right; auto]. rewrite Nat2Z.id in H. left. destruct H; congruence. }
  destruct (@outlines_exist m ss) as (vss & F). { intros s I. apply Hs in I as []. auto. }
  destruct (@C89_surfaces m t_mesh sub t ss vss U (or_introl eq_refl) Hp F) as (t' & parts & Et & X & L & D).
  exists t', ss, vss, parts. auto 10.
Qed.
Print Assumptions C89_mesh.
(** C89: when there is none, TriangulateMesh triangulates every surface: this is so
    without parents and in two dimensions. *)
Theorem C89_mesh_all m tr t : family_ready m tr -> nParents tr = 0 \/ volus m = [] ->
  triangulate_mesh m tr t = triangulate_container m t_mesh [] t.
Proof.
  intros R H. destruct (C45_positions R) as (sub & E & P). unfold triangulate_mesh. rewrite E. cbn [bind].
  destruct sub as [|p sub]; auto. destruct (proj1 (P p) (or_introl eq_refl)) as (k & s & v0 & v1 & i & _ & _ & _ & L & A).
  destruct H as [H|H]; [lia|]. unfold apart, inside, lies_in in A. rewrite H in A. cbn in A.
  destruct A as [A|[A|(c0 & c1 & (j & ? & ? & A & _) & _)]]; try tauto. destruct j; discriminate.
Qed.
Print Assumptions C89_mesh_all.

(** ** A case *)
(** Two pyramids on a square: the square 1 2 3 4, the top 5 and the bottom 6. *)
Definition pyramids : mesh :=
  mkMesh [mkVolu 1 false [1; 2; 3; 4; 5]; mkVolu 2 false [1; 6; 7; 8; 9]]
    [mkSurf 1 false true [2; 1] [1; 2; 3; 4];
     mkSurf 2 true true [1; 0] [1; 6; 5]; mkSurf 3 true true [1; 0] [2; 7; 6]; mkSurf 4 true true [1; 0] [3; 8; 7]; mkSurf 5 true true [1; 0] [4; 5; 8];
     mkSurf 6 true true [2; 0] [1; 9; 10]; mkSurf 7 true true [2; 0] [2; 10; 11]; mkSurf 8 true true [2; 0] [3; 11; 12]; mkSurf 9 true true [2; 0] [4; 12; 9]]
    [mkEdge 1 true [1; 2; 6] [1; 2]; mkEdge 2 true [1; 3; 7] [2; 3]; mkEdge 3 true [1; 4; 8] [3; 4]; mkEdge 4 true [1; 5; 9] [4; 1];
     mkEdge 5 true [2; 5] [1; 5]; mkEdge 6 true [2; 3] [2; 5]; mkEdge 7 true [3; 4] [3; 5]; mkEdge 8 true [4; 5] [4; 5];
     mkEdge 9 true [6; 9] [1; 6]; mkEdge 10 true [6; 7] [2; 6]; mkEdge 11 true [7; 8] [3; 6]; mkEdge 12 true [8; 9] [4; 6]]
    [mkVert 1 true [1; 4; 5; 9]; mkVert 2 true [1; 2; 6; 10]; mkVert 3 true [2; 3; 7; 11]; mkVert 4 true [3; 4; 8; 12]; mkVert 5 true [5; 6; 7; 8]; mkVert 6 true [9; 10; 11; 12]] 3.
Definition pyramid_tree : tree := mkTree 1 [1; 2] [7] [] [[10; 11]].
(** The corners of the nine surfaces. *)
Definition pyramid_corners : list (list Z) := [[1; 2; 3; 4]; [1; 2; 5]; [2; 3; 5]; [3; 4; 5]; [4; 1; 5]; [2; 1; 6]; [3; 2; 6]; [4; 3; 6]; [1; 4; 6]].
(** A test for [outlined]. *)
Definition joined (m : mesh) (e a b : Z) : bool :=
  existsb (fun x => (ed_index x =? e) && match ed_vertind x with [c; d] => ((c =? a) && (d =? b)) || ((c =? b) && (d =? a)) | _ => false end) (edges m).
Fixpoint distinct (l : list Z) : bool := match l with [] => true | a :: r => negb (existsb (Z.eqb a) r) && distinct r end.
Definition is_outlined (m : mesh) (s : surf) (vs : list Z) : bool :=
  (3 <=? length vs)%nat && distinct vs && (length vs =? length (su_edgeind s))%nat &&
  forallb (fun q => joined m (fst q) (fst (snd q)) (snd (snd q))) (combine (su_edgeind s) (combine vs (tl vs ++ firstn 1 vs))).
Lemma distinct_ok l : distinct l = true -> NoDup l.
Proof.
  induction l as [|a l IH]; intros H; constructor; cbn in H; apply andb_true_iff in H as [H1 H2]; auto. intros I. apply negb_true_iff in H1.
  rewrite (proj2 (existsb_exists (Z.eqb a) l)) in H1; [discriminate|]. exists a. rewrite Z.eqb_refl. auto.
Qed.
Lemma joined_ok m e a b : joined m e a b = true -> edge_joins m e a b.
Proof.
  intros H. apply existsb_exists in H as (x & I & H). apply andb_true_iff in H as [E H]. apply Z.eqb_eq in E.
  destruct (ed_vertind x) as [|c [|d [|? ?]]] eqn:V; try discriminate. apply orb_true_iff in H as [H|H]; apply andb_true_iff in H as [Ha Hb]; apply Z.eqb_eq in Ha, Hb; subst c d.
  - left. exists x. auto.
  - right. exists x. auto.
Qed.
Lemma outlined_ok m s vs : is_outlined m s vs = true -> outlined m s vs.
Proof.
  intros H. apply andb_true_iff in H as [H J]. apply andb_true_iff in H as [H L]. apply andb_true_iff in H as [L3 D].
  apply Nat.leb_le in L3. apply Nat.eqb_eq in L. split; auto. split; [apply distinct_ok; auto|]. split; auto. intros i e a b He Ha Hb.
  apply joined_ok. rewrite forallb_forall in J. apply (J (e, (a, b))). apply nth_error_In with (n := i).
  assert (C : forall A B (l : list A) (r : list B) i x y, nth_error l i = Some x -> nth_error r i = Some y -> nth_error (combine l r) i = Some (x, y)).
  { clear. intros A B. induction l as [|u l IH]; intros [|v r] [|i] x y H1 H2; try discriminate; cbn in *; [congruence|apply IH; auto]. }
  apply C; auto.
Qed.
Lemma pyramid_outlined : Forall2 (outlined pyramids) (surfs pyramids) pyramid_corners.
Proof. repeat (apply Forall2_cons; [apply outlined_ok; vm_compute; reflexivity|]). apply Forall2_nil. Qed.
Lemma pyramid_ready : family_ready pyramids pyramid_tree.
Proof.
  unfold family_ready. cbn. split; [repeat constructor; cbn; intuition discriminate|]. split; [repeat constructor; cbn; intuition discriminate|].
  split; [|split; [lia|intros row [<-|[]]; reflexivity]]. intros s I. repeat (destruct I as [<-|I]; [do 2 eexists; eexists; reflexivity|]). destruct I.
Qed.
Lemma pyramid_edges : NoDup (map ed_index (edges pyramids)).
Proof. cbn. repeat constructor; cbn; intuition discriminate. Qed.
Example C89_used : family_ready pyramids pyramid_tree /\ NoDup (map ed_index (edges pyramids)) /\
  Forall2 (outlined pyramids) (surfs pyramids) pyramid_corners /\ between pyramids pyramid_tree (mkSurf 1 false true [2; 1] [1; 2; 3; 4]) /\
  exists t', triangulate_mesh pyramids pyramid_tree no_tris = Ok t' /\ length (items (t_stat t')) = 12%nat /\ length (items (t_vert t')) = 1%nat.
Proof.
  split; [exact pyramid_ready|]. split; [exact pyramid_edges|]. split; [exact pyramid_outlined|]. split.
  - exists 2, 1, 0%nat. split; [exists []; auto|]. split; [cbn; lia|]. right. right. exists 11, 10.
    split; [exists 1%nat; do 2 eexists; cbn; auto|]. split; [exists 0%nat; do 2 eexists; cbn; auto|lia].
  - assert (E : exists a b, triangulate_mesh pyramids pyramid_tree no_tris = Ok (mkTris a cleared cleared b [] []) /\ length (items a) = 12%nat /\ length (items b) = 1%nat).
    { eexists _, _. split; [cbv -[Ropp R1 IZR]; reflexivity|]. split; reflexivity. }
    destruct E as (a & b & E & La & Lb). eexists. split; [exact E|]. auto.
Qed.
