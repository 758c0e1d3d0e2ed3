(** Theorems added after tests with wrong programs: the settings of the smoothing constants
    (C77) and spawning at a vertex where a surface has three edges (C96). *)
From Coq Require Import Reals List ZArith.
From Verif Require Import Base Mesh SpecMesh MeshCheck RsvsMath Num Snake Spawn.
Import ListNotations.
Set Implicit Arguments.

(** C77: after any calls on an object, the copies of RSVSmath.cpp hold the values last given
    to SetEnvironmentEpsilon, each in its own variable, and those of RSVSmath_automatic.cpp
    hold what they held at the start. *)
Theorem C77_last k l : forall s f s' f', RsvsMath.run k (s, f) l = Ok (s', f') ->
  let given := flat_map (fun o => match o with SetEpsilons c => [c] | _ => [] end) l in
  surf_m s' = last (map e_surf given) (surf_m s) /\ centre_m s' = last (map e_centre given) (centre_m s) /\
  centre2_m s' = last (map e_centre2 given) (centre2_m s) /\ centre_a s' = centre_a s /\ centre2_a s' = centre2_a s.
Proof.
  assert (Q : forall A B (g : A -> B) a l d, last (map g (a :: l)) d = last (map g l) (g a)).
  { intros A B g a l0. revert a. induction l0 as [|b r IH]; intros a d; [reflexivity|]. cbn [map]. cbn [map] in IH.
    transitivity (last (g b :: map g r) d); [reflexivity|]. rewrite IH. symmetry. rewrite IH. reflexivity. }
  induction l as [|o l IH]; intros s f s' f' H; cbn [RsvsMath.run] in H.
  - injection H as <- <-. cbn. auto.
  - destruct (RsvsMath.step k (s, f) o) as [[s1 f1]| | |] eqn:E; cbn [bind] in H; try discriminate H.
    specialize (IH _ _ _ _ H). cbn zeta in IH. cbn zeta. cbn [flat_map].
    destruct o as [pts|i v| | |c]; cbn [RsvsMath.step] in E.
    + destruct (Nat.eqb (length pts) (npoints k)); [|discriminate E]. injection E as <- <-. exact IH.
    + destruct (Nat.ltb i (npoints k)); [injection E as <- <-; exact IH|]. destruct (is_tri k); [injection E as <- <-; exact IH|discriminate E].
    + destruct (RsvsMath.calc s k f) as [f2| | |]; cbn [bind] in E; try discriminate E. injection E as <- <-. exact IH.
    + destruct k; try discriminate E. destruct (calc_fd s f) as [f2| | |]; cbn [bind] in E; try discriminate E. injection E as <- <-. exact IH.
    + injection E as <- <-. cbn [app]. rewrite !Q. exact IH.
Qed.
Print Assumptions C77_last.
Example C77_last_used s f : RsvsMath.run KArea (s, f) [SetEpsilons (mkEps 1 2 3); SetEpsilons (mkEps 4 5 6)] =
  Ok (mkStatics 4 5 6 (centre_a s) (centre2_a s), f).
Proof. reflexivity. Qed.

Open Scope Z_scope.
(** Finding: a surface with three edges at the vertex is written out of range. *)
Definition three_edges : mesh := mkMesh
  [mkVolu 1 false [1]; mkVolu 2 false [1]] [mkSurf 1 false true [1; 2] [1; 2; 3]]
  [mkEdge 1 false [1] [1; 2]; mkEdge 2 false [1] [1; 3]; mkEdge 3 false [1] [1; 4]]
  [mkVert 1 false [1; 2; 3]; mkVert 2 false [1]; mkVert 3 false [2]; mkVert 4 false [3]] 3.
Theorem C96_three_refuted : exists m v, well_connected m /\ has_vert m v /\ volus m <> [] /\
  (forall e s, VE m v e -> ES m e s -> s <> 0) /\ (forall s c, SV m s c -> has_volu m c) /\
  forall N (k : snake N), spawn_at_vertex m v k = UB.
Proof.
  exists three_edges, 1. split; [apply well_connectedb_spec; reflexivity|].
  split; [exists (mkVert 1 false [1; 2; 3]); split; [left; reflexivity|reflexivity]|]. split; [discriminate|].
  split; [intros e s _ [x [Hx [_ Hs]]]; simpl in Hx; destruct Hx as [<-|[<-|[<-|[]]]]; simpl in Hs; destruct Hs as [<-|Hs]; [discriminate|destruct Hs|discriminate|destruct Hs|discriminate|destruct Hs]|].
  split; [intros s c [x [Hx [_ Hc]]]; simpl in Hx; destruct Hx as [<-|[]]; simpl in Hc; destruct Hc as [<-|[<-|[]]]; [exists (mkVolu 1 false [1])|exists (mkVolu 2 false [1])]; split; simpl; auto|].
  intros N k. vm_compute. reflexivity.
Qed.
Print Assumptions C96_three_refuted.
