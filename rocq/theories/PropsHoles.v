(** The points from which the bodies are emptied, C113. *)
From Coq Require Import Lia Lqa QArith List ZArith.
From Verif Require Import Base Containers Mesh SpecMesh MeshProofs MeshCheck FloodProofs Num Snake Spawn Edit EditProofs Voxel SpecVoxel VoxelProofs.
From Verif Require Import Holes SpecHoles HolesProofs HolesSnakeProofs.
Import ListNotations.
Set Implicit Arguments.
Open Scope Z_scope.

(** ** The search from one vertex *)
Theorem C113_search m vin unc x ex :
  indexed m -> length vin = length (verts m) -> length ex = length (verts m) -> readable m vin unc ->
  (exists v, In v (verts m) /\ ve_index v = x) ->
  exists ex1 h, find_vertex_hole m vin unc x ex = Ok (ex1, h) /\ length ex1 = length (verts m) /\
    (forall y, flagged m ex y -> flagged m ex1 y) /\
    (forall y, flagged m ex1 y -> flagged m ex y \/ flagged m vin y /\ reach (reads m) m vin unc x y) /\
    (h <> -1 -> certain m vin unc h /\ ~ flagged m ex h /\ flagged m ex1 h /\ reach (reads m) m vin unc x h) /\
    (h = -1 -> settled m vin unc ex ->
       settled m vin unc ex1 /\ forall y, reach (reads m) m vin unc x y -> ~ certain m vin unc y).
Proof.
  intros I Lv L R V.
  destruct (@rounds_total m vin unc I Lv R (2 + length (verts m)) [x] ex L) as [[ex1 h] E]; [intros y [<-|[]]; exact V|lia|right; lia|].
  exists ex1, h. split; [exact E|]. destruct (@rounds_sound m vin unc I Lv _ _ _ _ _ L E) as (L1 & G & S & P & M).
  split; [exact L1|]. split; [exact G|]. split.
  { intros y Y. destruct (S y Y) as [A|[A [c [[<-|[]] B]]]]; auto. }
  split; [intros NE; destruct (P NE) as (A & B & C & [c [[<-|[]] D]]); auto|].
  intros -> T. destruct (M eq_refl) as [M1 M2].
  assert (T1 : settled m vin unc ex1).
  { intros y Y. destruct (@flag_dec m I ex y) as [F|F]; [|exact (M2 y Y F)].
    destruct (T y F) as [A B]. split; [exact A|]. intros z Hz Fz. apply G. exact (B z Hz Fz). }
  split; [exact T1|].
  assert (K : forall a b, reach (reads m) m vin unc a b -> (flagged m vin a -> flagged m ex1 a) -> flagged m vin b -> flagged m ex1 b).
  { induction 1 as [a|a b c Fa Ua Hr _ IH]; intros A B; [auto|]. apply IH; [|exact B]. intros Fb. exact (proj2 (T1 a (A Fa)) b Hr Fb). }
  intros y Y [F U]. apply U. apply T1. exact (K x y Y (M1 x (or_introl eq_refl)) F).
Qed.
Print Assumptions C113_search.

(** The two simple cases: a vertex in no doubt is its own hole, and a vertex outside or
    already seen gives nothing and is not marked. *)
Theorem C113_direct m vin unc x ex :
  indexed m -> length vin = length (verts m) -> length ex = length (verts m) ->
  (exists v, In v (verts m) /\ ve_index v = x) ->
  (certain m vin unc x -> ~ flagged m ex x -> exists ex1, find_vertex_hole m vin unc x ex = Ok (ex1, x) /\
     forall y, flagged m ex1 y <-> flagged m ex y \/ y = x) /\
  (~ flagged m vin x \/ flagged m ex x -> find_vertex_hole m vin unc x ex = Ok (ex, -1)).
Proof.
  intros I Lv L V. split.
  - intros C N. eexists. split; [exact (@hole_at m vin unc I Lv x ex L C N)|]. intros y. exact (@flag_upd m vin I Lv ex x y L V).
  - intros F. exact (@hole_none m vin unc I Lv x ex L V F).
Qed.
Print Assumptions C113_direct.

(** In an array of edges where every index is the position, the search follows the edges. *)
Theorem C113_positions m vin unc x y :
  (forall i e, nth_error (edges m) i = Some e -> ed_index e = Z.of_nat i) ->
  (reach (reads m) m vin unc x y <-> reach (joins m) m vin unc x y).
Proof.
  intros H. assert (J : forall a b, reads m a b <-> joins m a b).
  { intros a b. split.
    - intros (v & i & e & A & B & C & D & F). exists v, e. rewrite (H i e D). split; [exact A|]. split; [exact B|]. split; [exact C|]. split; [eapply nth_error_In; eauto|exact F].
    - intros (v & e & A & B & C & D & F). apply In_nth_error in D. destruct D as [i D]. exists v, i, e. rewrite <- (H i e D). auto. }
  split; induction 1 as [a|a b c Fa Ua Hr _ IH]; [constructor| |constructor|]; apply reach_step with b; auto; apply J; exact Hr.
Qed.
Print Assumptions C113_positions.

(** ** Where the search goes wrong *)
Lemma one_step r m vin x a y : reach r m vin [x] a y -> a = y \/ a = x /\ (y = x \/ r x y).
Proof.
  induction 1 as [a|a b c Fa [<-|[]] Hr _ IH]; [auto|]. right. split; [reflexivity|].
  destruct IH as [-> |[-> IH]]; [right; exact Hr|exact IH].
Qed.
Definition box : mesh := block_grid Z.div Z.div (1, 1, 1).
Definition inside (l : list Z) : list bool := map (fun v => mem_z (ve_index v) l) (verts box).
Lemma box_indexed : indexed box.
Proof.
  split.
  - vm_compute. repeat constructor; simpl; intuition discriminate.
  - intros v V. vm_compute in V. repeat destruct V as [<-|V]; try discriminate; contradiction.
Qed.
(** Vertex 1 of a cell is near a snaxel; 6 is inside but not joined to it, and is taken. *)
Theorem C113_joined_refuted : exists m vin unc x ex1 h, well_connected m /\ indexed m /\ length vin = length (verts m) /\
  find_vertex_hole m vin unc x (repeat false (length (verts m))) = Ok (ex1, h) /\ h <> -1 /\ ~ reach (joins m) m vin unc x h.
Proof.
  exists box, (inside [1; 6]), [1], 1. eexists. exists 6. split; [apply grid_connected; cbn; lia|]. split; [exact box_indexed|]. split; [reflexivity|].
  split; [vm_compute; reflexivity|]. split; [discriminate|]. intros H. apply one_step in H. destruct H as [H|[_ [H|H]]]; [discriminate|discriminate|].
  destruct H as (v & e & A & B & C & D & E). vm_compute in A. repeat destruct A as [<-|A]; try discriminate B; try contradiction.
  vm_compute in D. repeat destruct D as [<-|D]; try contradiction; cbn in C, E; intuition discriminate.
Qed.
Print Assumptions C113_joined_refuted.
(** Vertex 5, inside, in no doubt and joined to 1, is missed. *)
Theorem C113_missed_refuted : exists m vin unc x y ex1, well_connected m /\ indexed m /\ length vin = length (verts m) /\
  reach (joins m) m vin unc x y /\ certain m vin unc y /\
  find_vertex_hole m vin unc x (repeat false (length (verts m))) = Ok (ex1, -1).
Proof.
  exists box, (inside [1; 5]), [1], 1, 5. eexists. split; [apply grid_connected; cbn; lia|]. split; [exact box_indexed|]. split; [reflexivity|].
  split.
  { apply reach_step with 5; [exists 0%nat; eexists; split; [reflexivity|split; reflexivity]|simpl; auto| |constructor].
    eexists (mkVert 1 _ [1; 5; 9]), (mkEdge 9 _ _ [1; 5]). split; [vm_compute; left; reflexivity|]. split; [reflexivity|]. split; [simpl; auto|].
    split; [vm_compute; do 8 right; left; reflexivity|simpl; auto]. }
  split; [|vm_compute; reflexivity]. split; [exists 4%nat; eexists; split; [reflexivity|split; reflexivity]|intros [H|[]]; discriminate].
Qed.
Print Assumptions C113_missed_refuted.

(** ** The bodies of a snake *)
Theorem C113_holes N (k : snake N) m unc hs :
  indexed m -> length (k_in k) = length (verts m) -> bounded k -> find_holes k m unc = Ok hs ->
  (forall h, In h hs -> certain m (k_in k) unc h) /\ NoDup hs /\ (length hs <= length (volus (k_conn k)))%nat.
Proof. intros I L B H. exact (@holes_sound N k m unc I L B hs H). Qed.
Print Assumptions C113_holes.

Theorem C113_bodies N (k : snake N) m unc :
  indexed m -> length (k_in k) = length (verts m) -> bounded k -> resolved k ->
  (forall v x, In v (volus (k_conn k)) -> from_of k v x -> exists w, In w (verts m) /\ ve_index w = x) ->
  (forall v x, In v (volus (k_conn k)) -> from_of k v x -> flagged m (k_in k) x -> ~ In x unc) ->
  ForallOrdPairs (fun v w => forall x, from_of k v x -> from_of k w x -> ~ flagged m (k_in k) x) (volus (k_conn k)) ->
  exists os, find_holes k m unc = Ok (chosen os) /\ Forall2 (hole_of k m) (volus (k_conn k)) os.
Proof. intros I L B R V C A. exact (@holes_all N k m unc I L B R V C A). Qed.
Print Assumptions C113_bodies.

(** Two bodies, grown to half an edge around the vertices 1 and 8 of a cell. *)
Definition half_snax i (d : Q) f t e : snax Qn := mkSnax (N := Qn) i d 0%Q f t e 0 1.
Definition two_bodies (d : Q) (f g : Z) : snake Qn :=
  mkSnake [half_snax 1 d f 2 1; half_snax 2 d f 3 5; half_snax 3 d f 5 9;
           half_snax 4 d g 7 4; half_snax 5 d g 6 8; half_snax 6 d g 4 12] [] []
    (mkMesh [mkVolu 1 false [1]; mkVolu 2 false [2]] [mkSurf 1 false true [1; 0] [1; 2; 3]; mkSurf 2 false true [2; 0] [4; 5; 6]]
       [mkEdge 1 false [1] [1; 2]; mkEdge 2 false [1] [2; 3]; mkEdge 3 false [1] [3; 1];
        mkEdge 4 false [2] [4; 5]; mkEdge 5 false [2] [5; 6]; mkEdge 6 false [2] [6; 4]]
       [mkVert 1 false [1; 3]; mkVert 2 false [1; 2]; mkVert 3 false [2; 3];
        mkVert 4 false [4; 6]; mkVert 5 false [4; 5]; mkVert 6 false [5; 6]] 2) (inside [f; g]) false.
Lemma two_from : forall v x, In v (volus (k_conn (two_bodies (1 # 2) 1 8))) -> from_of (two_bodies (1 # 2) 1 8) v x -> vo_index v = 1 /\ x = 1 \/ vo_index v = 2 /\ x = 8.
Proof.
  intros v x V (s & e & sx & A & B & C & D & E & F & <-).
  destruct V as [<-|[<-|[]]]; destruct A as [<-|[<-|[]]]; cbn in B; (destruct B as [B|[]]; try discriminate B); clear B;
    (repeat destruct C as [<-|C]; [..|contradiction]); cbn in D; (destruct D as [D|[D|[D|[]]]]; try discriminate D); clear D;
    (repeat destruct E as [<-|E]; [..|contradiction]); cbn in F; (destruct F as [F|[F|[]]]; try discriminate F); cbn; auto.
Qed.
Example C113_case :
  let k := two_bodies (1 # 2) 1 8 in let unc := @group_close_snaxels Qn (k_snaxs k) (1 # 100)%Q in
  indexed box /\ length (k_in k) = length (verts box) /\ bounded k /\ resolved k /\
  (forall v x, In v (volus (k_conn k)) -> from_of k v x -> exists w, In w (verts box) /\ ve_index w = x) /\
  (forall v x, In v (volus (k_conn k)) -> from_of k v x -> flagged box (k_in k) x -> ~ In x unc) /\
  ForallOrdPairs (fun v w => forall x, from_of k v x -> from_of k w x -> ~ flagged box (k_in k) x) (volus (k_conn k)) /\
  find_holes k box unc = Ok [1; 8].
Proof.
  cbv zeta. pose proof two_from as T. split; [exact box_indexed|]. split; [reflexivity|].
  split; [split; [intros v [<-|[<-|[]]]; discriminate|intros s [<-|[<-|[]]]; discriminate]|].
  split.
  { unfold resolved. cbn. split; [repeat constructor; simpl; intuition discriminate|]. split; [repeat constructor; simpl; intuition discriminate|].
    split; [repeat constructor; simpl; intuition discriminate|].
    split; [intros v i [<-|[<-|[]]] I; cbn in I; intuition|]. split; [intros s i [<-|[<-|[]]] I; cbn in I; intuition|].
    intros e [<-|[<-|[<-|[<-|[<-|[<-|[]]]]]]]; (eexists; eexists; split; [reflexivity|]; split; intuition). }
  split.
  { intros v x V F. destruct (T v x V F) as [[_ ->]|[_ ->]]; [exists (nth 0 (verts box) (mkVert 0 false []))|exists (nth 7 (verts box) (mkVert 0 false []))]; (split; [apply nth_In; vm_compute; lia|reflexivity]). }
  split; [intros v x V F _; destruct (T v x V F) as [[_ ->]|[_ ->]]; vm_compute; intuition discriminate|].
  split; [|vm_compute; reflexivity].
  constructor; [|constructor; [constructor|constructor]]. constructor; [|constructor]. intros x A B _.
  destruct (T (mkVolu 1 false [1]) x) as [[_ ->]|[H _]]; [left; reflexivity|exact A| |discriminate H].
  destruct (T (mkVolu 2 false [2]) 1) as [[H _]|[_ H]]; [right; left; reflexivity|exact B|discriminate H|discriminate H].
Qed.
(** The same bodies just after they have been spawned: the search around vertex 8 reads past
    the end of the edges. *)
Theorem C113_bounds_refuted : exists (k : snake Qn) m tol, well_connected m /\ indexed m /\ length (k_in k) = length (verts m) /\ bounded k /\
  (0 < tol)%Q /\ find_holes k m (@group_close_snaxels Qn (k_snaxs k) tol) = UB.
Proof.
  exists (two_bodies 0 1 8), box, (1 # 100)%Q. split; [apply grid_connected; cbn; lia|]. split; [exact box_indexed|]. split; [reflexivity|].
  split; [split; [intros v [<-|[<-|[]]]; discriminate|intros s [<-|[<-|[]]]; discriminate]|].
  split; [reflexivity|vm_compute; reflexivity].
Qed.
Print Assumptions C113_bounds_refuted.
(** Bodies around vertices whose edges are not the last ones get no hole. *)
Theorem C113_every_body_refuted : exists (k : snake Qn) m tol, well_connected m /\ indexed m /\ length (k_in k) = length (verts m) /\ bounded k /\
  (0 < tol)%Q /\ length (volus (k_conn k)) = 2%nat /\ find_holes k m (@group_close_snaxels Qn (k_snaxs k) tol) = Ok [].
Proof.
  exists (two_bodies 0 1 7), box, (1 # 100)%Q. split; [apply grid_connected; cbn; lia|]. split; [exact box_indexed|]. split; [reflexivity|].
  split; [split; [intros v [<-|[<-|[]]]; discriminate|intros s [<-|[<-|[]]]; discriminate]|].
  split; [reflexivity|]. split; [reflexivity|vm_compute; reflexivity].
Qed.
Print Assumptions C113_every_body_refuted.

(** A body that has lost its faces repeats the hole of the body before. *)
Theorem C113_repeat_refuted : exists (k : snake Qn) m, well_connected m /\ indexed m /\ length (k_in k) = length (verts m) /\ resolved k /\
  exists h, find_holes k m [] = Ok [h; h].
Proof.
  exists (mkSnake [half_snax 1 (1 # 2) 1 2 1; half_snax 2 (1 # 2) 1 3 5; half_snax 3 (1 # 2) 1 5 9] [] []
    (mkMesh [mkVolu 1 false [1]; mkVolu 2 false []] [mkSurf 1 false true [1; 0] [1; 2; 3]]
       [mkEdge 1 false [1] [1; 2]; mkEdge 2 false [1] [2; 3]; mkEdge 3 false [1] [3; 1]]
       [mkVert 1 false [1; 3]; mkVert 2 false [1; 2]; mkVert 3 false [2; 3]] 2) (inside [1]) false), box.
  split; [apply grid_connected; cbn; lia|]. split; [exact box_indexed|]. split; [reflexivity|]. split; [|exists 1; vm_compute; reflexivity].
  unfold resolved. cbn. split; [repeat constructor; simpl; intuition discriminate|]. split; [repeat constructor; simpl; intuition discriminate|].
  split; [repeat constructor; simpl; intuition discriminate|]. split; [intros v i [<-|[<-|[]]] I; cbn in I; intuition|]. split; [intros s i [<-|[]] I; cbn in I; intuition|].
  intros e [<-|[<-|[<-|[]]]]; (eexists; eexists; split; [reflexivity|]; split; intuition).
Qed.
Print Assumptions C113_repeat_refuted.

(** ** The vertices in doubt *)
Theorem C113_near (snaxs : list (snax Qn)) (tol : Q) x : (tol <= 1 # 2)%Q -> x <> -1 ->
  (In x (@group_close_snaxels Qn snaxs tol) <->
   exists s, In s snaxs /\ (sx_from s = x /\ (sx_d s < tol)%Q \/ sx_to s = x /\ (1 - sx_d s < tol)%Q)).
Proof.
  intros T NX. unfold group_close_snaxels. rewrite in_map_iff. cbn. split.
  - intros (s & E & S). exists s. split; [exact S|]. destruct (qlt (sx_d s) tol) eqn:A; [left; apply qlt_true in A; auto|].
    destruct (qlt (1 - sx_d s) tol) eqn:B; [right; apply qlt_true in B; auto|congruence].
  - intros (s & S & [[<- A]|[<- A]]); exists s; (split; [|exact S]).
    + apply qlt_true in A. rewrite A. reflexivity.
    + assert (qlt (sx_d s) tol = false) as -> by (apply qlt_false; lra). apply qlt_true in A. rewrite A. reflexivity.
Qed.
Print Assumptions C113_near.

(** ** The coordinates given to tetgen *)
Theorem C113_coords A m (coord : list (list A)) hs :
  NoDup (map ve_index (verts m)) -> length coord = length (verts m) -> (forall p, In p coord -> length p = 3%nat) ->
  (forall h, In h hs -> exists v, In v (verts m) /\ ve_index v = h) ->
  exists r, hole_coords m coord hs = Ok r /\ length r = (3 * length hs)%nat /\
    forall i h j v, nth_error hs i = Some h -> nth_error (verts m) j = Some v -> ve_index v = h ->
      nth_error coord j = Some (firstn 3 (skipn (3 * i) r)).
Proof.
  intros ND L C V. unfold hole_coords. induction hs as [|h hs IH]; cbn [omap_list].
  - exists []. split; [reflexivity|]. split; [reflexivity|]. intros [|i] h j v H; discriminate H.
  - destruct IH as (r & E & Lr & P); [intros x X; apply V; right; exact X|].
    destruct (V h (or_introl eq_refl)) as [v [Hv Ev]]. apply In_nth_error in Hv. destruct Hv as [q Hq].
    assert (F : find ve_index (verts m) h = Z.of_nat q) by (rewrite <- Ev; exact (find_pos ND Hq)).
    destruct (nth_error coord q) as [c|] eqn:G; [|apply nth_error_None in G; assert (q < length (verts m))%nat by (apply nth_error_Some; congruence); lia].
    assert (at_ coord (find ve_index (verts m) h) = Ok c) as -> by (apply at_Ok; rewrite F, Nat2Z.id; split; [lia|exact G]). cbn [bind].
    pose proof (C c (nth_error_In _ _ G)) as C3. destruct c as [|c0 [|c1 [|c2 [|c3 c4]]]]; try discriminate C3.
    change (at_ [c0; c1; c2] 0) with (Ok c0). change (at_ [c0; c1; c2] 1) with (Ok c1). change (at_ [c0; c1; c2] 2) with (Ok c2). cbn [bind].
    destruct (omap_list _ hs) as [ps| | |]; try discriminate. cbn [bind] in *. injection E as <-.
    eexists. split; [reflexivity|]. split; [cbn; rewrite Lr; lia|].
    intros [|i] h1 j v1 H1 H2 H3.
    + injection H1 as <-. assert (j = q). { eapply (@pos_unique _ ve_index); [exact ND|exact H2|exact Hq|congruence]. } subst j. rewrite G. reflexivity.
    + cbn [nth_error] in H1. rewrite (P i h1 j v1 H1 H2 H3). replace (3 * S i)%nat with (S (S (S (3 * i)))) by lia. reflexivity.
Qed.
Print Assumptions C113_coords.
Example C113_coords_case : exists r, hole_coords box (map (fun v => [ve_index v; 0; 0]) (verts box)) [1; 8] = Ok r /\ r = [1; 0; 0; 8; 0; 0].
Proof. eexists. split; [vm_compute; reflexivity|reflexivity]. Qed.
(** A search with a vertex in doubt that meets the hypotheses of C113_search. *)
Example C113_search_case : indexed box /\ length (inside [1; 6]) = length (verts box) /\ readable box (inside [1; 6]) [1] /\
  find_vertex_hole box (inside [1; 6]) [1] 1 (repeat false 8) = Ok ([true; false; false; false; false; true; false; false], 6).
Proof.
  split; [exact box_indexed|]. split; [reflexivity|]. split; [|vm_compute; reflexivity].
  intros v V _ [U|[]] ei E. vm_compute in V. repeat destruct V as [<-|V]; try discriminate U; try contradiction.
  cbn in E. repeat destruct E as [<-|E]; try contradiction; (split; [lia|]); eexists; (split; [reflexivity|]);
    intros y Y; cbn in Y; repeat destruct Y as [<-|Y]; try contradiction;
    match goal with |- exists w, _ /\ _ = ?y => exists (nth (Z.to_nat (y - 1)) (verts box) (mkVert 0 false [])) end; (split; [apply nth_In; vm_compute; lia|reflexivity]).
Qed.
