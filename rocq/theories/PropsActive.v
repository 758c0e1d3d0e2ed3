(** The triangles of the mesh that count (C91). *)
From Coq Require Import Reals List Lia ZArith Bool.
From Verif Require Import Base FloodProofs MergeProofs Containers Mesh Order Edit SpecMesh Calc Triangulate SpecTriangulate SpecActive TriangulateProofs.
Import Mesh.
Set Implicit Arguments.
Open Scope Z_scope.

Lemma crossed_mem ts f : mem_z (fc_parent f) (map ts_parent ts) = true <-> crossed ts f.
Proof.
  unfold crossed. rewrite mem_z_In. rewrite in_map_iff. split; intros (s & A & B); exists s; auto.
Qed.
Lemma first_find l : (exists v, first_mesh_point v l) <-> List.find (fun p => fst p =? t_mesh) l <> None.
Proof.
  split.
  - intros (v & H). induction H as [r|p r N H IH]; cbn; [discriminate|]. destruct (Z.eqb_spec (fst p) t_mesh); [discriminate|auto].
  - induction l as [|[t i] r IH]; cbn; [congruence|]. destruct (Z.eqb_spec t t_mesh) as [->|N]; [exists i; constructor|]. intros H. destruct (IH H) as (v & F). exists v. constructor; auto.
Qed.
Lemma first_is v l : first_mesh_point v l -> List.find (fun p => fst p =? t_mesh) l = Some (t_mesh, v).
Proof. induction 1 as [r|p r N H IH]; cbn; auto. destruct (Z.eqb_spec (fst p) t_mesh); [easy|auto]. Qed.

Section Active.
Variables (m : mesh) (inside : list bool) (ts : list trisf).
Hypothesis Nv : NoDup (map ve_index (verts m)).

Lemma vertex_at v b : vertex_in m inside v b -> at_ inside (find ve_index (verts m) v) = Ok b.
Proof using Nv.
  intros (i & x & Hx & <- & Hb). rewrite (@find_pos _ ve_index _ i x) by auto. apply at_Ok. split; [lia|]. rewrite Nat2Z.id. auto.
Qed.
Lemma decided_ok f b : decided m inside ts f b -> surface_in m inside ts f = Ok b.
Proof using Nv.
  unfold surface_in. intros [[C ->]|(C & v & F & V)].
  - rewrite (proj2 (crossed_mem ts f) C). auto.
  - destruct (mem_z (fc_parent f) (map ts_parent ts)) eqn:E; [apply crossed_mem in E; easy|]. rewrite (first_is F). apply vertex_at; auto.
Qed.
Lemma leads_filter l f p : fc_parent f <> p -> leads (filter (fun g => negb (fc_parent g =? p)) l) f <-> leads l f.
Proof.
  intros N. assert (K : negb (fc_parent f =? p) = true) by (destruct (Z.eqb_spec (fc_parent f) p); [easy|auto]). split.
  - intros (a & b & E & H). revert a E H. induction l as [|g l IH]; intros a E H; [destruct a; discriminate|]. cbn in E.
    destruct (Z.eqb_spec (fc_parent g) p) as [G|G]; cbn in E.
    + destruct (IH a E H) as (a' & b' & -> & H'). exists (g :: a'), b'. split; auto. intros x [<-|I]; [congruence|auto].
    + destruct a as [|y a]; cbn in E; injection E as -> E; [exists [], l; split; [auto|easy]|].
      destruct (IH a E) as (a' & b' & -> & H'); [intros; apply H; right; auto|]. exists (y :: a'), b'. split; auto. intros x [<-|I]; [apply H; left; auto|auto].
  - intros (a & b & -> & H). rewrite filter_app. cbn. rewrite K. eexists _, _. split; [reflexivity|]. intros g I. apply filter_In in I as []. auto.
Qed.
Lemma loop_active n : forall todo, (length todo <= n)%nat -> (forall f, leads todo f -> exists b, decided m inside ts f b) ->
  exists l, active_loop n m inside ts todo = Ok l /\ (NoDup (map fc_index todo) -> NoDup l) /\
    forall i, In i l <-> exists f g, In f todo /\ fc_index f = i /\ leads todo g /\ fc_parent g = fc_parent f /\ decided m inside ts g true.
Proof using Nv.
  induction n as [|n IH]; intros [|f r] L D; cbn in L; try lia.
  - exists []. cbn. split; auto. split; [constructor|]. intros i. split; [easy|]. intros (f & _ & [] & _).
  - exists []. cbn. split; auto. split; [constructor|]. intros i. split; [easy|]. intros (f & _ & [] & _).
  - cbn [active_loop]. assert (Lf : leads (f :: r) f) by (exists [], r; split; [auto|easy]). destruct (D f Lf) as (b & Db). rewrite (decided_ok Db). cbn [bind].
    set (rest := filter (fun g => negb (fc_parent g =? fc_parent f)) (f :: r)).
    assert (Lr : (length rest <= n)%nat).
    { unfold rest. cbn [filter]. rewrite Z.eqb_refl. cbn [negb]. assert (K : forall l : list face, (length (filter (fun g => negb (fc_parent g =? fc_parent f)%Z) l) <= length l)%nat).
      { clear. induction l; cbn; auto. destruct (negb _); cbn; lia. } specialize (K r). lia. }
    assert (Lead : forall g, leads rest g -> fc_parent g <> fc_parent f).
    { intros g (a & c & E & _). assert (I : In g rest) by (rewrite E; apply in_app_iff; cbn; auto). apply filter_In in I as [_ I]. destruct (Z.eqb_spec (fc_parent g) (fc_parent f)); [discriminate|auto]. }
    destruct (IH rest Lr) as (l & E & N & I). { intros g Hg. apply D. unfold rest in Hg. rewrite leads_filter in Hg by (apply Lead; auto). auto. }
    rewrite E. cbn [bind]. eexists. split; [reflexivity|].
    assert (First : forall g, leads (f :: r) g -> fc_parent g = fc_parent f -> g = f).
    { intros g (a & c & Eg & H) P. destruct a as [|y a]; cbn in Eg; injection Eg as -> _; auto. exfalso. apply (H y); cbn; auto. }
    split.
    + intros Nd. assert (Fd : forall (q : face -> bool), NoDup (map fc_index (filter q (f :: r)))).
      { intros q. clear - Nd. induction (f :: r) as [|x l IH]; cbn; [constructor|]. cbn in Nd. apply NoDup_cons_iff in Nd as [Nx Nd]. destruct (q x); auto. cbn. constructor; auto.
        intros I. apply Nx. apply in_map_iff in I as (y & <- & I). apply filter_In in I as [I _]. apply List.in_map. auto. }
      apply NoDup_app2; [destruct b; [apply Fd|constructor]|apply N; apply Fd|]. intros i I1 I2. apply I in I2 as (x & g & Ix & <- & Lg & Pg & _).
      destruct b; [|destruct I1]. apply in_map_iff in I1 as (y & Ey & Iy). apply filter_In in Iy as [Iy Py]. apply filter_In in Ix as [Ix Px].
      assert (y = x) as ->. { clear - Nd Iy Ix Ey. induction (f :: r) as [|z l IH]; [easy|]. cbn in Nd. apply NoDup_cons_iff in Nd as [Nz Nd].
        destruct Iy as [->|Iy], Ix as [->|Ix]; auto; exfalso; apply Nz; [rewrite Ey|rewrite <- Ey]; apply List.in_map; auto. }
      rewrite Py in Px. discriminate.
    + intros i. rewrite in_app_iff, I. split.
      * intros [H|(x & g & Ix & Ei & Lg & Pg & Dg)].
        -- destruct b; [|destruct H]. apply in_map_iff in H as (x & <- & Ix). apply filter_In in Ix as [Ix Px]. apply Z.eqb_eq in Px. exists x, f. auto.
        -- exists x, g. apply filter_In in Ix as [Ix _]. split; auto. split; auto. split; auto. unfold rest in Lg. rewrite leads_filter in Lg by (apply Lead; auto). auto.
      * intros (x & g & Ix & <- & Lg & Pg & Dg). destruct (Z.eq_dec (fc_parent g) (fc_parent f)) as [P|P].
        -- left. rewrite (First g Lg P) in Dg. assert (b = true) as -> by (apply decided_ok in Dg, Db; congruence). apply List.in_map. apply filter_In. split; auto. apply Z.eqb_eq. congruence.
        -- right. exists x, g. split; [|split; [auto|split; [apply leads_filter; auto|auto]]]. apply filter_In. split; auto. destruct (Z.eqb_spec (fc_parent x) (fc_parent f)); [congruence|auto].
Qed.
(** C91: the active triangles are exactly those of the surfaces that the snake does not
    cross and whose first corner, in the first triangle, is inside. *)
Theorem C91_first t : t_surf t = ts -> (forall f, leads (items (t_stat t)) f -> exists b, decided m inside ts f b) ->
  exists t', set_active m inside t = Ok t' /\ only_active t t' /\ (NoDup (map fc_index (items (t_stat t))) -> NoDup (t_act t')) /\
    forall i, In i (t_act t') <-> exists f g, In f (items (t_stat t)) /\ fc_index f = i /\ leads (items (t_stat t)) g /\ fc_parent g = fc_parent f /\ decided m inside ts g true.
Proof using Nv.
  intros Et D. destruct (@loop_active (length (items (t_stat t))) (items (t_stat t)) (le_n _) D) as (l & E & N & I).
  unfold set_active. rewrite Et, E. cbn [bind]. eexists. split; [reflexivity|]. split; [repeat split; auto|]. split; auto.
Qed.
(** C91: when on each surface that is not crossed all corners are inside or all are
    outside, the active triangles are exactly those inside on such surfaces. *)
Theorem C91_active t : t_surf t = ts ->
  (forall f, In f (items (t_stat t)) -> ~ crossed ts f -> exists v b, first_mesh_point v (tri_pts (fc_tri f)) /\ vertex_in m inside v b) ->
  (forall f g v w b b', In f (items (t_stat t)) -> In g (items (t_stat t)) -> fc_parent f = fc_parent g -> ~ crossed ts f ->
     In (t_mesh, v) (tri_pts (fc_tri f)) -> In (t_mesh, w) (tri_pts (fc_tri g)) -> vertex_in m inside v b -> vertex_in m inside w b' -> b = b') ->
  exists t', set_active m inside t = Ok t' /\ only_active t t' /\
    forall i, In i (t_act t') <-> exists f v, In f (items (t_stat t)) /\ fc_index f = i /\ ~ crossed ts f /\ In (t_mesh, v) (tri_pts (fc_tri f)) /\ vertex_in m inside v true.
Proof using Nv.
  intros Et P Q. assert (Cx : forall f, {crossed ts f} + {~ crossed ts f}).
  { intros f. destruct (mem_z (fc_parent f) (map ts_parent ts)) eqn:E; [left; apply crossed_mem; auto|right; intros H; apply crossed_mem in H; congruence]. }
  assert (LI : forall f, leads (items (t_stat t)) f -> In f (items (t_stat t))) by (intros f (a & b & -> & _); apply in_app_iff; cbn; auto).
  assert (FI : forall v l, first_mesh_point v l -> In (t_mesh, v) l) by (induction 1; cbn; auto).
  destruct (@C91_first t Et) as (t' & E & O & _ & I).
  { intros f L. destruct (Cx f) as [C|C]; [exists false; left; auto|]. destruct (P f (LI f L) C) as (v & b & F & V). exists b. right. split; auto. exists v. auto. }
  exists t'. split; auto. split; auto. intros i. rewrite I. split.
  - intros (f & g & If & <- & Lg & Pg & [[_ H]|(C & v & F & V)]); [discriminate|]. assert (Cf : ~ crossed ts f).
    { intros (s & Is & Ps). apply C. exists s. split; auto. congruence. }
    destruct (P f If Cf) as (w & b & Fw & Vw). exists f, w. split; auto. split; auto. split; auto. split; auto.
    assert (true = b) as ->; auto. eapply (Q g f v w); eauto.
  - intros (f & v & If & <- & C & Iv & V). 
    assert (exists g, leads (items (t_stat t)) g /\ fc_parent g = fc_parent f) as (g & Lg & Pg).
    { clear - If. induction (items (t_stat t)) as [|x l IH]; [easy|]. destruct (Z.eq_dec (fc_parent x) (fc_parent f)) as [E|E]; [exists x; split; auto; exists [], l; split; [auto|easy]|].
      destruct If as [->|If]; [easy|]. destruct (IH If) as (g & (a & b & -> & H) & Pg). exists g. split; auto. exists (x :: a), b. split; auto. intros y [<-|Iy]; [congruence|auto]. }
    exists f, g. split; auto. split; auto. split; auto. split; auto. right. assert (Cg : ~ crossed ts g). { intros (s & Is & Ps). apply C. exists s. split; auto. congruence. }
    split; auto. destruct (P g (LI g Lg) Cg) as (w & b & Fw & Vw). exists w. split; auto. assert (true = b) as ->; auto. eapply (Q f g v w); eauto.
Qed.
(** C91: a surface that is not crossed and whose first triangle has no corner of the mesh
    is refused. *)
Theorem C91_refused t f r : t_surf t = ts -> items (t_stat t) = f :: r -> ~ crossed ts f -> (forall v, ~ In (t_mesh, v) (tri_pts (fc_tri f))) ->
  set_active m inside t = Throw.
Proof.
  intros Et E C H. unfold set_active. rewrite Et, E. cbn [length active_loop]. unfold surface_in.
  destruct (mem_z (fc_parent f) (map ts_parent ts)) eqn:X; [apply crossed_mem in X; easy|].
  destruct (List.find (fun p => fst p =? t_mesh) (tri_pts (fc_tri f))) as [[y i]|] eqn:F; [|reflexivity]. apply find_some in F as [I T]. cbn in T. apply Z.eqb_eq in T as ->. destruct (H i I).
Qed.
End Active.
Print Assumptions C91_first.
Print Assumptions C91_active.
Print Assumptions C91_refused.

(** Three surfaces with vertices 1 to 4; the snake crosses surface 2. *)
Definition act_mesh : mesh := mkMesh [] [] [] [mkVert 1 false []; mkVert 2 false []; mkVert 3 false []; mkVert 4 false []] 3.
Definition act_tris : tris :=
  mkTris (mkArr [mkFace (mkTri 1 [(t_tri, 9); (t_mesh, 1); (t_mesh, 2)] [] []) 1; mkFace (mkTri 2 [(t_mesh, 2); (t_mesh, 3); (t_mesh, 1)] [] []) 2;
                 mkFace (mkTri 3 [(t_mesh, 2); (t_mesh, 1); (t_tri, 9)] [] []) 1; mkFace (mkTri 4 [(t_mesh, 3); (t_mesh, 4); (t_mesh, 3)] [] []) 3] 4)
    cleared cleared cleared [mkTrisf 1 [] [] 2] [7].
Lemma act_known v b : vertex_in act_mesh [true; true; false; false] v b -> (v, b) = (1, true) \/ (v, b) = (2, true) \/ (v, b) = (3, false) \/ (v, b) = (4, false).
Proof. intros (i & x & Hx & <- & Hb). destruct i as [|[|[|[|i]]]]; cbn in Hx, Hb; [| | | |destruct i; discriminate]; injection Hx as <-; injection Hb as <-; auto. Qed.
Example C91_used : NoDup (map ve_index (verts act_mesh)) /\
  (forall f, In f (items (t_stat act_tris)) -> ~ crossed (t_surf act_tris) f -> exists v b, first_mesh_point v (tri_pts (fc_tri f)) /\ vertex_in act_mesh [true; true; false; false] v b) /\
  (forall f g v w b b', In f (items (t_stat act_tris)) -> In g (items (t_stat act_tris)) -> fc_parent f = fc_parent g -> ~ crossed (t_surf act_tris) f ->
     In (t_mesh, v) (tri_pts (fc_tri f)) -> In (t_mesh, w) (tri_pts (fc_tri g)) -> vertex_in act_mesh [true; true; false; false] v b -> vertex_in act_mesh [true; true; false; false] w b' -> b = b') /\
  exists t', set_active act_mesh [true; true; false; false] act_tris = Ok t' /\ t_act t' = [1; 3].
Proof.
  assert (C2 : forall f, fc_parent f = 2 -> crossed (t_surf act_tris) f) by (intros f E; eexists; split; [left; reflexivity|auto]).
  split; [repeat constructor; cbn; intuition discriminate|]. split; [|split].
  - intros f [<-|[<-|[<-|[<-|[]]]]] C.
    + exists 1, true. split; [apply first_later; [discriminate|apply first_here]|]. exists 0%nat. eexists. cbn. auto.
    + destruct C. apply C2. auto.
    + exists 2, true. split; [apply first_here|]. exists 1%nat. eexists. cbn. auto.
    + exists 3, false. split; [apply first_here|]. exists 2%nat. eexists. cbn. auto.
  - intros f g v w b b' [<-|[<-|[<-|[<-|[]]]]] [<-|[<-|[<-|[<-|[]]]]] P C Iv Iw V W; try discriminate P; try (destruct C; apply C2; reflexivity);
      apply act_known in V; apply act_known in W; cbn in Iv, Iw;
      repeat match goal with H : _ \/ _ |- _ => destruct H as [H|H] | H : False |- _ => destruct H end; try congruence.
  - eexists. split; reflexivity.
Qed.
