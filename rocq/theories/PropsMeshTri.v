(** Splitting the surfaces of a mesh into triangles (C108). *)
From Coq Require Import Reals.
From Verif Require Import Base Containers Mesh Flood Edit Order MeshTri SpecMesh SpecOrder SpecMeshTri Flatten ContainersProofs MeshProofs MeshCheck TetgenProofs PropsTetgen MeshTriWhole.
From Verif Require Calc Triangulate SpecTriangulate PropsTriangulate.
Import Mesh.
Set Implicit Arguments.
Open Scope Z_scope.

(** C108: splitting succeeds on every consistent mesh of polygons and gives a consistent mesh
    of polygons: what is not split stays, what is split becomes a fan of triangles around a
    new vertex at its centre, between the same cells, and nothing else is added. *)
Theorem C108_split m ts : well_connected m -> polygonal m -> legal_tris m ts ->
  exists m' from F, mesh_triangulation m ts = Ok (m', from) /\ well_connected m' /\ polygonal m' /\ kept m m' /\ fans_for m m' ts F from.
Proof. intros W P L. apply triangulation_ok; auto. Qed.
Print Assumptions C108_split.

Lemma mixed_fan typ (a b : Z) (c : Z) p : typ = Calc.t_mesh \/ typ = Calc.t_snake -> mixed (mkTriangle p [(typ, a); (typ, b); (Calc.t_tri, c)]) = true.
Proof. intros [-> | ->]; reflexivity. Qed.
Lemma mixed_plain typ (l : list Z) p : typ = Calc.t_mesh \/ typ = Calc.t_snake -> length l = 3%nat -> mixed (mkTriangle p (map (pair typ) l)) = false.
Proof. intros H L. destruct l as [|a [|b [|c [|]]]]; try discriminate L. destruct H as [-> | ->]; reflexivity. Qed.
Lemma polygonal_corners m : polygonal m -> exists vss, Forall2 (SpecTriangulate.outlined m) (surfs m) vss.
Proof.
  intros P. assert (G : forall l, (forall s, In s l -> In s (surfs m)) -> exists vss, Forall2 (SpecTriangulate.outlined m) l vss).
  { induction l as [|s l IH]; intros H; [exists []; constructor|].
    destruct IH as [vss F]; [intros; apply H; simpl; auto|]. destruct (P s (H s (or_introl eq_refl))) as [N3 [vs [ND Po]]]. exists (vs :: vss). constructor; auto.
    split; [|split; auto]. destruct Po as [Q _]. rewrite Q. exact N3. }
  apply G. auto.
Qed.
Lemma Forall2_nth A B (R : A -> B -> Prop) l l' : Forall2 R l l' -> forall i a, nth_error l i = Some a -> exists b, nth_error l' i = Some b /\ R a b.
Proof. induction 1 as [|x y l l' H F IH]; intros [|i] a E; try discriminate E; [injection E as <-; exists y; auto|]. apply IH. exact E. Qed.
(** C108: triangulating all the surfaces of a mesh or of a snake and splitting gives a mesh
    in which every surface has three edges. *)
Theorem C108_triangles m typ : typ = Calc.t_mesh \/ typ = Calc.t_snake -> well_connected m -> polygonal m ->
  exists t' m' from F, Triangulate.triangulate_container m typ [] Triangulate.no_tris = Ok t' /\
    let ts := map of_face (Triangulate.items (SpecTriangulate.tri_array typ t')) in
    mesh_triangulation m ts = Ok (m', from) /\ well_connected m' /\ kept m m' /\ fans_for m m' ts F from /\
    (forall i, to_split ts i <-> exists s, In s (surfs m) /\ su_index s = i /\ (3 < length (su_edgeind s))%nat) /\
    (forall t, In t (surfs m') -> length (su_edgeind t) = 3%nat).
Proof.
  intros Ht W P. destruct (polygonal_corners P) as [vss Hv].
  destruct (@PropsTriangulate.C89_surfaces m typ [] Triangulate.no_tris (surfs m) vss) as (t' & parts & E & (_ & X & _) & Lp & D); auto; [apply W|reflexivity|].
  set (ts := map of_face (Triangulate.items (SpecTriangulate.tri_array typ t'))).
  assert (Xi : Triangulate.items (SpecTriangulate.tri_array typ t') = concat (map fst parts)).
  { rewrite X. destruct Ht as [-> | ->]; reflexivity. }
  assert (Hin : forall t, In t ts <-> exists i s vs p f, nth_error (surfs m) i = Some s /\ nth_error vss i = Some vs /\ nth_error parts i = Some p /\ In f (fst p) /\ t = of_face f).
  { intros t. unfold ts. rewrite Xi, in_map_iff. split.
    - intros [f [<- F]]. apply in_concat in F. destruct F as [fs [F1 F2]]. apply in_map_iff in F1. destruct F1 as [p [<- F1]]. destruct (In_nth_error _ _ F1) as [i Hi].
      assert (exists s, nth_error (surfs m) i = Some s) as [s Hs]. { destruct (nth_error (surfs m) i) as [s|] eqn:Q; [eauto|]. apply nth_error_None in Q. assert (i < length parts)%nat by (apply nth_error_Some; congruence). lia. }
      destruct (Forall2_nth Hv _ Hs) as [vs [Q _]]. exists i, s, vs, p, f. auto.
    - intros (i & s & vs & p & f & _ & _ & Hp & Hf & ->). exists f. split; auto. apply in_concat. exists (fst p). split; auto. apply List.in_map. eapply nth_error_In; eauto. }
  assert (Hsplit : forall i, to_split ts i <-> exists s, In s (surfs m) /\ su_index s = i /\ (3 < length (su_edgeind s))%nat).
  { intros i. split.
    - intros [t [Ht1 [Ht2 Ht3]]]. apply Hin in Ht1. destruct Ht1 as (k & s & vs & p & f & K1 & K2 & K3 & K4 & ->). destruct (D k s vs p K1 K2 K3) as [[Hp [[L3 [M _]]|[L3 _]]] _].
      + exfalso. rewrite map_length in L3. assert (Hf : In (Calc.tri_pts (Triangulate.fc_tri f)) [map (pair typ) vs]) by (rewrite <- M; apply List.in_map_iff; eauto).
        destruct Hf as [Hf|[]]. unfold of_face in Ht2. rewrite <- Hf in Ht2. rewrite mixed_plain in Ht2; auto. discriminate Ht2.
      + exists s. split; [eapply nth_error_In; eauto|]. split; [rewrite <- Ht3; symmetry; apply Hp; auto|]. destruct (Forall2_nth Hv _ K1) as [vs' [Q [_ [_ [Q2 _]]]]]. assert (vs' = vs) by congruence. subst. rewrite map_length in L3. lia.
    - intros [s [Hs [<- L3]]]. destruct (In_nth_error _ _ Hs) as [k K1]. destruct (Forall2_nth Hv _ K1) as [vs [K2 [_ [_ [Q2 _]]]]].
      assert (exists p, nth_error parts k = Some p) as [p K3]. { destruct (nth_error parts k) as [p|] eqn:Q; [eauto|]. apply nth_error_None in Q. assert (k < length (surfs m))%nat by (apply nth_error_Some; congruence). lia. }
      destruct (D k s vs p K1 K2 K3) as [[Hp [[L4 _]|[_ [L4 [c [_ [_ [_ Hf]]]]]]]] _]; [rewrite map_length in L4; lia|].
      destruct (fst p) as [|f fs] eqn:Ef; [rewrite map_length in L4; simpl in L4; lia|]. exists (of_face f). split; [apply Hin; exists k, s, vs, p, f; rewrite Ef; simpl; auto 7|].
      destruct (Hf 0%nat f eq_refl) as [a [b [A1 [A2 A3]]]]. rewrite nth_error_map in A1, A2. destruct (nth_error vs 0) as [va|]; [|discriminate A1]. cbn [option_map] in A1. injection A1 as <-.
      match type of A2 with option_map _ ?o = _ => destruct o as [vb|]; [|discriminate A2] end. cbn [option_map] in A2. injection A2 as <-.
      split; [unfold of_face; rewrite A3; apply mixed_fan; auto|]. apply Hp. simpl. auto. }
  assert (L : legal_tris m ts).
  { intros t Ht1 Ht2. pose proof Ht1 as Ht0. apply Hin in Ht1. destruct Ht1 as (k & s & vs & p & f & K1 & K2 & K3 & K4 & ->). destruct (D k s vs p K1 K2 K3) as [[Hp C] _].
    split; [exists s; split; [eapply nth_error_In; eauto|]; symmetry; apply Hp; auto|]. destruct C as [[L3 [M _]]|[L3 [L4 [c [_ [_ [_ Hf]]]]]]].
    - exfalso. rewrite map_length in L3. assert (Hf : In (Calc.tri_pts (Triangulate.fc_tri f)) [map (pair typ) vs]) by (rewrite <- M; apply List.in_map_iff; eauto).
      destruct Hf as [Hf|[]]. unfold of_face in Ht2. rewrite <- Hf in Ht2. rewrite mixed_plain in Ht2; auto. discriminate Ht2.
    - destruct (In_nth_error _ _ K4) as [j J]. destruct (Hf j f J) as [a [b [_ [_ A3]]]]. exists (Calc.t_tri, Triangulate.cn_index c). split; [|reflexivity]. unfold of_face. cbn [tr_points]. rewrite A3. simpl. auto. }
  destruct (C108_split W P L) as (m' & from & F & E2 & W' & P' & K & Fa). exists t', m', from, F. split; auto. cbn zeta. fold ts. split; auto. split; auto. split; auto. split; auto. split; auto.
  intros t Hm. destruct Fa as [_ [_ [F3 [F4 _]]]]. apply F4 in Hm. destruct Hm as [[Hm Q]|[f [Hf Hm]]].
  - destruct (P t Hm) as [N3 _]. assert (~ (3 < length (su_edgeind t))%nat) by (intros B; apply Q, Hsplit; exists t; auto). lia.
  - destruct (F3 f Hf) as [_ [_ [_ [_ [_ [_ Q]]]]]]. destruct (In_nth_error _ _ Hm) as [k Hk]. destruct (Q k t Hk) as [_ [_ [_ [a [b [e [x [y [-> _]]]]]]]]]. reflexivity.
Qed.
Print Assumptions C108_triangles.

(** A pyramid on a square, with the base and one side to split: the mesh is consistent and
    listed in order, and the result has ten surfaces. *)
Definition pyramid : mesh := mkMesh
  [mkVolu 1 false [1; 2; 3; 4; 5]]
  [mkSurf 1 true true [1; 0] [1; 2; 3; 4]; mkSurf 2 true true [1; 0] [1; 6; 5]; mkSurf 3 true true [1; 0] [2; 7; 6];
   mkSurf 4 true true [0; 1] [3; 8; 7]; mkSurf 5 true true [1; 0] [4; 5; 8]]
  [mkEdge 1 true [1; 2] [1; 2]; mkEdge 2 true [1; 3] [2; 3]; mkEdge 3 true [1; 4] [4; 3]; mkEdge 4 true [1; 5] [4; 1];
   mkEdge 5 true [2; 5] [1; 5]; mkEdge 6 true [2; 3] [2; 5]; mkEdge 7 true [3; 4] [3; 5]; mkEdge 8 true [4; 5] [5; 4]]
  [mkVert 1 true [1; 4; 5]; mkVert 2 true [1; 2; 6]; mkVert 3 true [2; 3; 7]; mkVert 4 true [3; 4; 8]; mkVert 5 true [5; 6; 7; 8]] 3.
Ltac poly vs := split; [simpl; lia|]; exists vs; split;
  [repeat constructor; simpl; intuition lia|split; [reflexivity|]; intros [|[|[|[|i]]]] e a b E1 E2 E3; simpl in E1, E2, E3; try (destruct i; discriminate E1); try discriminate E1;
   injection E1 as <-; injection E2 as <-; injection E3 as <-; apply joinsb_ok; reflexivity].
Definition pyramid_tris : list tri :=
  [mkTriangle 1 [(1, 1); (1, 2); (3, 7)]; mkTriangle 2 [(1, 1); (1, 2); (1, 5)]; mkTriangle 1 [(1, 2); (1, 3); (3, 7)];
   mkTriangle 3 [(1, 2); (3, 9); (1, 3)]].
Example C108_hyps : well_connected pyramid /\ polygonal pyramid /\ legal_tris pyramid pyramid_tris.
Proof.
  split; [apply well_connectedb_spec; reflexivity|]. split.
  - intros s [<-|[<-|[<-|[<-|[<-|[]]]]]]; [poly [1; 2; 3; 4]|poly [1; 2; 5]|poly [2; 3; 5]|poly [3; 4; 5]|poly [4; 1; 5]].
  - intros t [<-|[<-|[<-|[<-|[]]]]] M; try discriminate M; (split; [apply (in_map_idx su_index (surfs pyramid)); simpl; auto|]); [exists (3, 7)|exists (3, 7)|exists (3, 9)]; simpl; auto.
Qed.
Example C108_case : exists m', mesh_triangulation pyramid pyramid_tris = Ok (m', [7; 9]) /\ length (surfs m') = 10%nat /\ length (edges m') = 15%nat /\
  map ve_index (verts m') = [1; 2; 3; 4; 5; 6; 7] /\ map su_edgeind (surfs m') = [[9; 12; 1]; [1; 6; 5]; [13; 15; 2]; [3; 8; 7]; [4; 5; 8]; [9; 10; 2]; [10; 11; 3]; [11; 12; 4]; [13; 14; 7]; [14; 15; 6]].
Proof. eexists. split; [vm_compute; reflexivity|]. repeat split. Qed.
