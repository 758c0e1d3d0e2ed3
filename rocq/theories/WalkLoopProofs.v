(** Walking around one part of a surface. *)
From Coq Require Import List ZArith Lia Arith Permutation.
From Verif Require Import Base Containers ContainersProofs Mesh SpecMesh MeshProofs FloodProofs Order SpecOrder OrderProofs OrderMeshProofs Edit SpecEdit EditProofs Calc Triangulate SpecTriangulate TriangulateProofs SpecWalk WalkProofs.
Import Mesh.
Set Implicit Arguments.
Open Scope Z_scope.

Ltac types H := exfalso; cbn [fst] in H; unfold t_mesh, t_snake in H; discriminate H.
Definition node_dec (a b : Z * Z) : {a = b} + {a <> b}.
Proof. decide equality; apply Z.eq_dec. Defined.
Section Walk.
Variables (k : snk) (m : mesh) (su : surf) (inside : Z -> Prop) (vp : list Z).
Hypothesis Hu : NoDup (map ed_index (edges m)).
Hypothesis K : sound_snake k.
Hypothesis C : cut k m su inside.
Let l := su_edgeind su.
Let s := su_index su.
Hypothesis EP : edge_pairs m l = Ok vp.
Notation adj := (linked k m l s).

Lemma adj_sym a b : adj a b -> adj b a.
Proof.
  intros [e x y [I J]|e v w I J N|e x I S|e x I S].
  - apply by_snake with e. split; auto. now apply joins_sym.
  - apply by_edge with e; auto. now apply joins_sym.
  - now apply to_vertex with e.
  - now apply to_snaxel with e.
Qed.
Lemma adj_irrefl a : ~ adj a a.
Proof using Hu C.
  intros A. destruct (cut_outline C) as [vs O]. inversion A as [e x y J E1 E2|e v w I J N E1 E2|e x I S E1 E2|e x I S E1 E2]; subst; try (unfold t_mesh, t_snake in *; congruence).
  - destruct (cut_snake C J) as [N _]. congruence.
  - destruct (outline_ends Hu O e I) as (a & b & Eab & N'). destruct J as [J|J]; destruct (edge_is_fun Hu J Eab); congruence.
Qed.
(** Nodes on the way: snaxels of the surface and inside vertices *)
Definition good (a : Z * Z) : Prop :=
  (fst a = t_snake /\ exists e x, In e l /\ snaxel_on k e x /\ sx_index x = snd a) \/
  (fst a = t_mesh /\ inside (snd a) /\ exists e, In e l /\ edge_touches m e (snd a)).
Lemma adj_good a b : good a -> adj a b -> good b.
Proof using C.
  intros G A. revert G. destruct A as [e x y J|e v w I J N|e x I S|e x I S]; intros G.
  - left. split; [easy|]. destruct J as [J1 J2]. destruct (cut_snake C (conj J1 (joins_sym J2))) as (_ & f & a' & F & S & X). now exists f, a'.
  - right. split; [easy|]. cbn [snd]. destruct G as [[G _]|(_ & G & _)]; [types G|]. split; [eapply (cut_free C); eauto|]. exists e. split; auto. exists v. now apply joins_sym.
  - left. split; [easy|]. now exists e, x.
  - right. split; [easy|]. destruct (cut_ends C I S) as (J & Ins & _). split; [exact Ins|]. exists e. split; [exact I|]. now exists (sx_to x).
Qed.
(** The neighbour of a vertex along an edge *)
Definition via (e v : Z) (p : Z * Z) : Prop :=
  In e l /\ edge_touches m e v /\
  ((exists w, p = (t_mesh, w) /\ edge_joins m e v w /\ forall x, ~ snaxel_on k e x) \/ (exists x, p = (t_snake, sx_index x) /\ snaxel_on k e x /\ sx_from x = v)).
Lemma via_adj e v p : via e v p -> adj (t_mesh, v) p.
Proof.
  intros (I & _ & [(w & -> & J & N)|(x & -> & S & <-)]); [now apply by_edge with e|now apply to_snaxel with e].
Qed.
Lemma adj_via v p : adj (t_mesh, v) p -> exists e, via e v p.
Proof using C.
  intros A. inversion A as [|e v' w I J N|e x I S|]; subst.
  - exists e. split; auto. split; [now exists w|]. left. now exists w.
  - exists e. split; auto. split; [exists (sx_to x); now apply (cut_ends C)|]. right. now exists x.
Qed.
Lemma snaxel_fun e f x y : snaxel_on k e x -> snaxel_on k f y -> sx_index x = sx_index y -> x = y /\ e = f.
Proof using K.
  intros [I E] [I' E'] X. assert (x = y) by (eapply (@NoDup_idx_inj _ sx_index); eauto; apply snake_snaxels; auto). subst y. split; congruence.
Qed.
Lemma via_edge e f v p : via e v p -> via f v p -> e = f.
Proof using Hu K C.
  intros (I & _ & H) (I' & _ & H'). destruct (cut_outline C) as [vs O].
  destruct H as [(w & -> & J & N)|(x & -> & S & F)], H' as [(w' & E & J' & N')|(x' & E & S' & F')]; try (unfold t_mesh, t_snake in E; congruence).
  - injection E as ->. eapply (outline_once Hu O); eauto.
  - injection E as E. now apply (snaxel_fun S S').
Qed.
Lemma via_node e v p q : via e v p -> via e v q -> p = q.
Proof using Hu C.
  intros (I & _ & H) (_ & _ & H'). destruct H as [(w & -> & J & N)|(x & -> & S & F)], H' as [(w' & -> & J' & N')|(x' & -> & S' & F')].
  - f_equal. eapply joins_fun; eauto.
  - now contradiction (N x').
  - now contradiction (N' x).
  - do 2 f_equal. eapply (cut_single C); eauto.
Qed.
(** At an inside vertex there is a neighbour along each of its two edges. *)
Lemma inside_via e v : In e l -> edge_touches m e v -> inside v -> exists p, via e v p.
Proof using Hu C.
  intros I [w J] V. destruct (on_edge k e) as [|x r] eqn:E.
  - exists (t_mesh, w). split; auto. split; [now exists w|]. left. exists w. split; auto. split; auto. intros x S. apply on_edge_In in S. now rewrite E in S.
  - assert (S : snaxel_on k e x) by (apply on_edge_In; rewrite E; now left).
    destruct (cut_ends C I S) as (J' & F & T). exists (t_snake, sx_index x). split; auto. split; [now exists w|]. right. exists x. split; auto. split; auto.
    destruct J as [J|J], J' as [J'|J']; destruct (edge_is_fun Hu J J'); subst; auto; contradiction.
Qed.
Lemma deg2 a b c d : good a -> adj a b -> adj a c -> adj a d -> b = c \/ c = d \/ b = d.
Proof using Hu K C.
  intros G B C' D. destruct a as [ty a]. destruct G as [(Ty & e & x & I & S & X)|(Ty & Ins & e & I & T)]; cbn [fst snd] in *; subst ty.
  - assert (N : forall p, adj (t_snake, a) p -> p = (t_mesh, sx_from x) \/ exists f y, p = (t_snake, y) /\ joins_in k s f a y).
    { intros p A. remember (t_snake, a) as n eqn:En. destruct A as [f x' y J|f v w I' J N|f x' I' S'|f x' I' S'].
      - injection En as ->. right. now exists f, y.
      - injection En as Ty _. types Ty.
      - injection En as Ty _. types Ty.
      - injection En as E1. left. assert (Ex : sx_index x = sx_index x') by congruence. destruct (snaxel_fun S S' Ex) as [-> _]. reflexivity. }
    assert (Q : forall f y g z, joins_in k s f a y -> joins_in k s g a z -> y = z).
    { intros f y g z Jf Jg. destruct (cut_one C I S) as (h & u & _ & Only). rewrite X in Only. assert (f = g) as -> by (rewrite (Only _ _ Jf), (Only _ _ Jg); reflexivity).
      destruct Jf as [_ Jf], Jg as [_ Jg]. exact (joins_fun (snake_edges K) Jf Jg). }
    destruct (N b B) as [->|(f1 & y1 & -> & J1)], (N c C') as [->|(f2 & y2 & -> & J2)], (N d D) as [->|(f3 & y3 & -> & J3)]; auto.
    + right; left. f_equal. eauto.
    + right; right. f_equal. eauto.
    + left. f_equal. eauto.
    + left. f_equal. eauto.
  - destruct (adj_via B) as [eb Vb], (adj_via C') as [ec Vc], (adj_via D) as [ed Vd]. destruct (cut_outline C) as [vs O].
    destruct (outline_pair Hu O a) as (j & e1 & e2 & _ & _ & _ & _ & _ & _ & Only); [eapply (outline_vertex Hu O); eauto|].
    destruct (Only eb (proj1 Vb) (proj1 (proj2 Vb))) as [->| ->], (Only ec (proj1 Vc) (proj1 (proj2 Vc))) as [->| ->], (Only ed (proj1 Vd) (proj1 (proj2 Vd))) as [->| ->];
      try (left; eapply via_node; eassumption); try (right; left; eapply via_node; eassumption); try (right; right; eapply via_node; eassumption).
Qed.

(** ** One move *)
Lemma move_vertex v e p : inside v -> via e v p -> exists f q, via f v q /\ f <> e /\ q <> p /\ follow_vertex k m l vp v e = Ok (fst q, snd q, f) /\
  (fst q = t_mesh -> via f (snd q) (t_mesh, v)).
Proof using Hu K C EP.
  intros Ins V. assert (V' := V). destruct V' as (I & T & _). destruct (cut_outline C) as [vs O].
  destruct (proj2 (outline_loops Hu O) e v I T) as (f & If & Nf & Tf & _).
  destruct (inside_via If Tf Ins) as [q Vq].
  destruct (follow_vertex_at k Hu (outline_NoDup Hu O) (outline_loops Hu O) EP I If (not_eq_sym Nf) T Tf) as (w & J & E).
  exists f, q. split; auto. split; auto. split; [intros ->; apply Nf; symmetry; eapply via_edge; eauto|].
  destruct Vq as (_ & _ & [(w' & -> & J' & N)|(x & -> & S & F)]).
  - assert (w = w') as -> by (eapply joins_fun; eauto). split.
    + fold l in E. rewrite E. destruct (on_edge k f) as [|y r] eqn:On; [reflexivity|]. contradiction (N y). apply on_edge_In. rewrite On. now left.
    + intros _. cbn [snd]. split; auto. apply joins_sym in J'. split; [now exists v|]. left. now exists v.
  - split; [|intros X; types X]. fold l in E. rewrite E. assert (X := proj2 (on_edge_In k f x) S). destruct (on_edge k f) as [|y r] eqn:On; [easy|].
    assert (y = x) as ->; [|reflexivity]. eapply (cut_single C); eauto. apply on_edge_In. rewrite On. now left.
Qed.
Lemma lookup_in {A} e (r : list (Z * A)) a : NoDup (map fst r) -> In (e, a) r -> lookup e r = Ok a.
Proof.
  induction r as [|[i b] r IH]; intros N I; [easy|]. cbn in N |- *. inversion N as [|? ? Ni Nr]; subst. destruct I as [E|I].
  - injection E as -> ->. now rewrite Z.eqb_refl.
  - destruct (Z.eqb_spec i e) as [->|_]; auto. contradiction Ni. now apply (List.in_map fst) in I.
Qed.
Lemma edges_NoDup : NoDup (map fst (sk_edges k)).
Proof using K. rewrite (snake_aligned K). apply (snake_edges K). Qed.
Lemma edge_place e z : In (e, z) (sk_edges k) -> exists p ed, nth_error (sk_edges k) p = Some (e, z) /\ find fst (sk_edges k) e = Z.of_nat p /\
  nth_error (edges (sk_conn k)) p = Some ed /\ ed_index ed = e.
Proof using K.
  intros I. apply In_nth_error in I as [p P]. assert (F := @find_pos _ fst (sk_edges k) p (e, z) edges_NoDup P). exists p.
  assert (M := map_nth_error fst _ _ P). rewrite (snake_aligned K) in M. cbn in M.
  rewrite nth_error_map in M. destruct (nth_error (edges (sk_conn k)) p) as [ed|] eqn:Ed; [|discriminate]. injection M as M. now exists ed.
Qed.
Lemma place_inj p q e z z' : nth_error (sk_edges k) p = Some (e, z) -> nth_error (sk_edges k) q = Some (e, z') -> p = q.
Proof using K.
  intros P Q. apply (proj1 (NoDup_nth_error _) edges_NoDup).
  - rewrite map_length. apply nth_error_Some. congruence.
  - now rewrite (map_nth_error fst _ _ P), (map_nth_error fst _ _ Q).
Qed.
(** The snaxel at the other end of the snake's edge in the surface *)
Lemma move_snaxedge e x done follow : In e l -> snaxel_on k e x -> length done = length (sk_edges k) ->
  exists f y p b, joins_in k s f (sx_index x) y /\ nth_error (sk_edges k) p = Some (f, s) /\ nth_error done p = Some b /\
    (follow = 0 \/ follow = f -> follow_snaxedge k (sx_index x) s follow done = Ok (b, y, upd done p true)).
Proof using K C.
  intros I S L. destruct (cut_one C I S) as (f & y & J & Only). destruct (cut_vertex C I S) as (v & Iv & Ev).
  destruct J as [If Jf]. destruct (@edge_place _ _ If) as (p & ed & P & F & Ped & Ied).
  assert (Lp : (p < length done)%nat) by (rewrite L; apply nth_error_Some; congruence).
  destruct (nth_error done p) as [b|] eqn:B; [|apply nth_error_None in B; lia].
  exists f, y, p, b. split; [split; auto|]. split; auto. split; auto. intros Fo. unfold follow_snaxedge.
  rewrite <- Ev, (isearch_in ve_index _ v (snake_verts K) Iv). cbn [bind].
  assert (Ef : (if follow =? 0 then edge_in_surface k s (ve_edgeind v) else Ok follow) = Ok f).
  { destruct (Z.eqb_spec follow 0) as [->|N]; [|destruct Fo; congruence].
    assert (Q : forall r, incl r (ve_edgeind v) -> In f r -> edge_in_surface k s r = Ok f).
    { induction r as [|g r IH]; intros Sub Ig; [easy|]. cbn [edge_in_surface].
      assert (Tg : edge_touches (sk_conn k) g (ve_index v)) by (apply (snake_lists K v g Iv), Sub; now left).
      assert (Pg : exists z, In (g, z) (sk_edges k)).
      { destruct Tg as [w Jw]. assert (In g (map ed_index (edges (sk_conn k)))) as Hg by (destruct Jw as [(q & Iq & Eq & _)|(q & Iq & Eq & _)]; rewrite <- Eq; now apply List.in_map).
        rewrite <- (snake_aligned K) in Hg. apply in_map_iff in Hg as ([g' z] & Eg & Hg). cbn in Eg. subst g'. now exists z. }
      destruct Pg as [z Pg]. rewrite (@lookup_in _ _ _ _ edges_NoDup Pg). cbn [bind]. destruct (Z.eqb_spec z s) as [->|Nz].
      - f_equal. destruct Tg as [w Jw]. apply (Only g w). split; auto. now rewrite <- Ev.
      - apply IH; [intros h Hh; apply Sub; now right|]. destruct Ig as [->|Ig]; auto. exfalso. apply Nz.
        assert (H1 := @lookup_in _ _ _ _ edges_NoDup Pg). assert (H2 := @lookup_in _ _ _ _ edges_NoDup If). unfold s. congruence. }
    apply Q; [apply incl_refl|]. apply (snake_lists K v f Iv). rewrite Ev. now exists y. }
  rewrite Ef. cbn [bind]. rewrite F.
  assert (at_ done (Z.of_nat p) = Ok b) as -> by (apply at_Ok; split; [lia|now rewrite Nat2Z.id]). cbn [bind].
  assert (at_ (edges (sk_conn k)) (Z.of_nat p) = Ok ed) as -> by (apply at_Ok; split; [lia|now rewrite Nat2Z.id]). cbn [bind].
  rewrite Nat2Z.id. assert (Ned : sx_index x <> y) by (now apply (cut_snake C) with (e := f)).
  assert (Ied' := nth_error_In _ _ Ped).
  destruct Jf as [(q & Iq & Eq & Vq)|(q & Iq & Eq & Vq)]; (assert (q = ed) as -> by (apply (@NoDup_idx_inj _ ed_index _ q ed (snake_edges K)); auto; congruence)); rewrite Vq, Ev;
    change (at_ [sx_index x; y] 1) with (Ok y); change (at_ [y; sx_index x] 1) with (Ok (sx_index x)); cbn [bind].
  - destruct (Z.eqb_spec y (sx_index x)); [congruence|]. reflexivity.
  - rewrite Z.eqb_refl. reflexivity.
Qed.
Lemma move_snaxel e x : In e l -> snaxel_on k e x ->
  follow_snaxel k (sx_index x) = Ok (t_mesh, sx_from x, e) /\ via e (sx_from x) (t_snake, sx_index x) /\ inside (sx_from x).
Proof using K C.
  intros I S. destruct (cut_ends C I S) as (J & Ins & _). assert (S' := S). destruct S' as [Ix Ex].
  split; [|split; auto; split; auto; split; [now exists (sx_to x)|right; now exists x]].
  destruct (@follow_snaxel_spec k x (snake_snaxels K) Ix) as [(y & M & _)|[_ ->]]; [|now rewrite Ex].
  destruct M as (Sy & B & _). rewrite Ex in Sy. assert (y = x) as -> by (eapply (cut_single C); eauto). unfold behind in B. lia.
Qed.

(** ** The loop *)
Definition chain (L : list (Z * Z)) : Prop := forall i a b, nth_error L i = Some a -> nth_error L (S i) = Some b -> adj a b.
Lemma chain_cons a b L : adj a b -> chain (b :: L) -> chain (a :: b :: L).
Proof. intros A H [|i] x y X Y; cbn in X, Y; [injection X as <-; injection Y as <-; exact A|]. now apply (H i). Qed.
Lemma nth_inj {A} (L : list A) i j a : NoDup L -> nth_error L i = Some a -> nth_error L j = Some a -> i = j.
Proof. intros N I J. apply (proj1 (NoDup_nth_error L) N); [apply nth_error_Some|]; congruence. Qed.
Lemma revisit L cur h h2 r : L = h :: h2 :: r -> NoDup L -> chain L -> (forall a, In a L -> good a) -> adj h cur -> h2 <> cur -> In cur L ->
  exists r', L = r' ++ [cur].
Proof using Hu K C.
  intros EL N Ch G A N2 I. assert (Gc := G cur I). apply In_nth_error in I as [i Hi].
  assert (H0 : nth_error L 0 = Some h) by (now rewrite EL). assert (H1 : nth_error L 1 = Some h2) by (now rewrite EL).
  destruct i as [|i]; [rewrite H0 in Hi; injection Hi as ->; now contradiction (adj_irrefl A)|].
  destruct (nth_error L (S (S i))) as [q|] eqn:Q.
  - exfalso. destruct (nth_error L i) as [p|] eqn:P; [|apply nth_error_None in P; assert (S i < length L)%nat by (apply nth_error_Some; congruence); lia].
    destruct (@deg2 cur p q h) as [E|[E|E]]; auto.
    + apply adj_sym. now apply (Ch i).
    + now apply (Ch (S i)).
    + now apply adj_sym.
    + subst q. assert (X := nth_inj _ _ N P Q). lia.
    + subst q. assert (X := nth_inj _ _ N H0 Q). lia.
    + subst p. assert (X := nth_inj _ _ N H0 P). subst i. congruence.
  - destruct (nth_error_split L _ Hi) as (l1 & l2 & E & Len). destruct l2 as [|z l2]; [now exists l1|].
    exfalso. rewrite E, nth_error_app2 in Q by lia. replace (S (S i) - length l1)%nat with 1%nat in Q by lia. discriminate.
Qed.
Lemma on_edge_one e : In e l -> (length (on_edge k e) <= 1)%nat.
Proof using K C.
  intros I. assert (N : NoDup (on_edge k e)).
  { unfold on_edge. apply NoDup_filter. apply (NoDup_map_inv sx_index). apply (snake_snaxels K). }
  destruct (on_edge k e) as [|x [|y r]] eqn:E; cbn; try lia. exfalso.
  assert (x = y). { eapply (cut_single C); [exact I|apply on_edge_In; rewrite E; now left|apply on_edge_In; rewrite E; right; now left]. }
  subst y. inversion N as [|? ? Nx _]. apply Nx. now left.
Qed.
Lemma count_le A (f : A -> list (Z * Z)) L : (forall a, In a L -> (length (f a) <= 1)%nat) -> (length (flat_map f L) <= length L)%nat.
Proof.
  induction L as [|a L IH]; intros H; [easy|]. cbn. rewrite app_length. assert (Ha := H a (or_introl eq_refl)).
  assert (IH' := IH (fun b Hb => H b (or_intror Hb))). lia.
Qed.
Lemma good_bound L : NoDup L -> (forall a, In a L -> good a) -> (length L <= 2 * length l)%nat.
Proof using Hu K C.
  intros N G. destruct (cut_outline C) as [vs O].
  assert (Sub : incl L (map (pair t_mesh) vs ++ flat_map (fun e => map (fun x => (t_snake, sx_index x)) (on_edge k e)) l)).
  { intros [ty i] I. apply in_or_app. destruct (G _ I) as [(Ty & e & x & Ie & S & X)|(Ty & Ins & e & Ie & T)]; cbn [fst snd] in *; subst ty.
    - right. apply in_flat_map. exists e. split; auto. apply in_map_iff. exists x. split; [congruence|]. now apply on_edge_In.
    - left. apply List.in_map. eapply (outline_vertex Hu O); eauto. }
  assert (Len := NoDup_incl_length N Sub). rewrite app_length, map_length in Len.
  assert (B := @count_le _ (fun e => map (fun x => (t_snake, sx_index x)) (on_edge k e)) l ltac:(intros e Ie; cbv beta; rewrite map_length; now apply on_edge_one)).
  destruct (outline_len O) as [Ll _]. fold l in Ll. lia.
Qed.
Definition is_mesh (a : Z * Z) : bool := fst a =? t_mesh.
Lemma mesh_bound L : NoDup L -> (forall a, In a L -> good a) -> (length (filter is_mesh L) <= length l)%nat.
Proof using Hu C.
  intros N G. destruct (cut_outline C) as [vs O].
  assert (Sub : incl (filter is_mesh L) (map (pair t_mesh) vs)).
  { intros [ty i] I. apply filter_In in I as [I M]. unfold is_mesh in M. cbn in M. apply Z.eqb_eq in M. subst ty.
    destruct (G _ I) as [(Ty & _)|(_ & Ins & e & Ie & T)]; [types Ty|]. apply List.in_map. eapply (outline_vertex Hu O); eauto. }
  assert (Len := NoDup_incl_length (NoDup_filter _ N) Sub). rewrite map_length in Len. destruct (outline_len O) as [Ll _]. fold l in Ll. lia.
Qed.

Variables (a0 b0 e0 : Z) (done0 : list bool) (Cl : Z * Z -> Prop).
Hypothesis Cl_closed : forall a b, Cl a -> adj a b -> Cl b.
Definition marked (done : list bool) (x : Z) : Prop :=
  exists p e y, nth_error (sk_edges k) p = Some (e, s) /\ edge_joins (sk_conn k) e x y /\ nth_error done p = Some true.
Hypothesis Cl_marks : forall x, marked done0 x -> Cl (t_snake, x).
Hypothesis Len0 : length done0 = length (sk_edges k).
Hypothesis Start : joins_in k s e0 a0 b0.
Hypothesis Fresh : ~ Cl (t_snake, a0).
Definition node (w : stroll) : Z * Z := (wk_type w, wk_index w).
Record ongoing (w : stroll) : Prop := {
  o_len : length (wk_done w) = length (sk_edges k);
  o_tail : exists r, wk_corners w = r ++ [(t_snake, b0); (t_snake, a0)];
  o_nodup : NoDup (wk_corners w);
  o_chain : chain (wk_corners w);
  o_good : forall a, In a (wk_corners w) -> good a /\ ~ Cl a;
  o_node : good (node w) /\ ~ Cl (node w);
  o_head : exists h h2 r, wk_corners w = h :: h2 :: r /\ adj h (node w) /\ h2 <> node w /\
    (wk_type w = t_mesh -> via (wk_edge w) (wk_index w) h) /\ (wk_type w = t_snake -> wk_edge w = 0 /\ fst h = t_mesh);
  o_mated : forall e x y, joins_in k s e x y -> In (t_snake, x) (wk_corners w) -> In (t_snake, y) (wk_corners w);
  o_marks : forall p, nth_error (wk_done w) p = Some true <-> nth_error done0 p = Some true \/
    exists e x y, nth_error (sk_edges k) p = Some (e, s) /\ edge_joins (sk_conn k) e x y /\ In (t_snake, x) (wk_corners w);
  o_count : wk_n w = length (filter is_mesh (wk_corners w));
  o_turn : (1 <= wk_n w)%nat -> exists A pr v nx B, rev (wk_corners w) ++ [node w] = A ++ pr :: (t_mesh, v) :: nx :: B /\
    via (wk_p1 w) v pr /\ via (wk_p2 w) v nx /\ wk_p1 w <> wk_p2 w }.
Lemma fresh_adj a b : ~ Cl a -> adj a b -> ~ Cl b.
Proof using Cl_closed. intros N A B. apply N. eapply Cl_closed; eauto. now apply adj_sym. Qed.
Lemma again w : ongoing w -> In (node w) (wk_corners w) -> node w = (t_snake, a0).
Proof using Hu K C.
  intros W I. destruct (o_head W) as (h & h2 & r & E & A & N2 & _).
  destruct (revisit E (o_nodup W) (o_chain W) (fun a Ia => proj1 (o_good W a Ia)) A N2 I) as [r' Er].
  destruct (o_tail W) as [r2 E2]. rewrite E2 in Er. change [(t_snake, b0); (t_snake, a0)] with ([(t_snake, b0)] ++ [(t_snake, a0)]) in Er.
  rewrite app_assoc in Er. now apply app_inj_tail in Er as [_ <-].
Qed.
Lemma upd_true (d : list bool) p : nth_error d p = Some true -> upd d p true = d.
Proof.
  revert p. induction d as [|x d IH]; intros [|p] H; cbn in *; try discriminate; [congruence|]. f_equal. auto.
Qed.
Lemma step_vertex w : ongoing w -> wk_type w = t_mesh ->
  exists w', stroll_step k m s l vp w = Ok (w', false) /\ ongoing w' /\ (length (wk_corners w') > length (wk_corners w))%nat.
Proof using All.
  intros W Ty. destruct (o_head W) as (h & h2 & r & E & A & N2 & V & _). specialize (V Ty).
  destruct (o_node W) as [G F]. assert (Gn := G). destruct G as [[T _]|(_ & Ins & _)]; [cbn in T; rewrite Ty in T; types T|]. cbn [node snd] in Ins.
  destruct (move_vertex Ins V) as (f & q & Vq & Nf & Nq & Ef & Back).
  assert (Nw : ~ In (node w) (wk_corners w)).
  { intros I. apply (again W) in I. unfold node in I. injection I as T _. rewrite Ty in T. types T. }
  assert (En : node w = (t_mesh, wk_index w)) by (unfold node; congruence).
  assert (Aq : adj (node w) q) by (rewrite En; eapply via_adj; eauto).
  unfold stroll_step. rewrite Ty, Z.eqb_refl, Ef. cbn [bind].
  eexists. split; [reflexivity|]. split; [|cbn [wk_corners length]; lia].
  set (w' := mkStroll _ _ _ _ _ _ _ _). assert (Nd : node w' = q) by (unfold node, w'; cbn [wk_type wk_index]; now destruct q).
  constructor; rewrite ?Nd; cbn [w' wk_type wk_index wk_edge wk_corners wk_n wk_done wk_p1 wk_p2]; rewrite <- ?En.
  - apply W.
  - destruct (o_tail W) as [r2 ->]. now exists (node w :: r2).
  - constructor; auto. apply W.
  - rewrite E. apply chain_cons; [now apply adj_sym|]. rewrite <- E. apply W.
  - intros a [<-|I]; [auto|]. now apply (o_good W).
  - split; [eapply adj_good; eauto|eapply fresh_adj; eauto].
  - exists (node w), h, (h2 :: r). rewrite E. split; auto. split; auto. split; [congruence|]. split.
    + intros Tq. rewrite Tq. change (t_mesh =? t_snake) with false. cbv iota. rewrite En. now apply Back.
    + intros Tq. rewrite Tq, Z.eqb_refl. split; auto.
  - intros e x y J [I|I]; [rewrite En in I; injection I as T _; types T|]. right. eapply (o_mated W); eauto.
  - intros p. rewrite (o_marks W p). split; (intros [H|(e & x & y & P & J & I)]; [now left|right; exists e, x, y; split; [exact P|split; [exact J|]]]).
    + now right.
    + destruct I as [I|I]; auto. rewrite En in I. injection I as T _. types T.
  - cbn [filter]. replace (is_mesh (node w)) with true by (rewrite En; reflexivity). cbn [length]. now rewrite (o_count W).
  - intros _. exists (rev (h2 :: r)), h, (wk_index w), q, []. rewrite E, <- En. cbn [rev]. rewrite <- !app_assoc. cbn [app]. split; [reflexivity|]. auto.
Qed.
Lemma mate_unique e x y : joins_in k s e x y -> forall g z, joins_in k s g x z -> g = e /\ z = y.
Proof using K C.
  intros J g z J'. destruct (cut_snake C J) as (_ & f & a & If & S & X). destruct (cut_one C If S) as (h & u & _ & Only). rewrite X in Only.
  assert (g = e) as -> by (rewrite (Only _ _ J), (Only _ _ J'); reflexivity). split; auto. destruct J as [_ J], J' as [_ J']. exact (joins_fun (snake_edges K) J' J).
Qed.
(** The two snaxels at the ends of an edge of the snake join the walk together. *)
Lemma step_pair w e x y p d : (wk_corners w = [] \/ exists h, nth_error (wk_corners w) 0 = Some h /\ adj h (t_snake, x)) ->
  joins_in k s e x y -> nth_error (sk_edges k) p = Some (e, s) ->
  length (wk_done w) = length (sk_edges k) -> NoDup (wk_corners w) -> chain (wk_corners w) ->
  (forall a, In a (wk_corners w) -> good a /\ ~ Cl a) -> ~ Cl (t_snake, x) ->
  (forall e x y, joins_in k s e x y -> In (t_snake, x) (wk_corners w) -> In (t_snake, y) (wk_corners w)) ->
  (forall p, nth_error (wk_done w) p = Some true <-> nth_error done0 p = Some true \/
    exists e x y, nth_error (sk_edges k) p = Some (e, s) /\ edge_joins (sk_conn k) e x y /\ In (t_snake, x) (wk_corners w)) ->
  wk_n w = length (filter is_mesh (wk_corners w)) ->
  ((1 <= wk_n w)%nat -> exists A pr v nx B, rev (wk_corners w) ++ [(t_snake, x)] = A ++ pr :: (t_mesh, v) :: nx :: B /\
    via (wk_p1 w) v pr /\ via (wk_p2 w) v nx /\ wk_p1 w <> wk_p2 w) ->
  (exists r, (t_snake, y) :: (t_snake, x) :: wk_corners w = r ++ [(t_snake, b0); (t_snake, a0)]) ->
  ~ In (t_snake, x) (wk_corners w) -> nth_error (wk_done w) p = Some d ->
  d = false /\ exists nx ed, follow_snaxel k y = Ok (t_mesh, nx, ed) /\
    ongoing (mkStroll t_mesh nx ed ((t_snake, y) :: (t_snake, x) :: wk_corners w) (wk_n w) (upd (wk_done w) p true) (wk_p1 w) (wk_p2 w)).
Proof using All.
  intros Hd J P Len N Ch G F M Mk Ct Tn Tl Nx D. assert (J0 := J). destruct J0 as [Ie Je].
  assert (Jr : joins_in k s e y x) by (split; auto; now apply joins_sym).
  assert (Lp : (p < length (wk_done w))%nat) by (apply nth_error_Some; congruence).
  split.
  { destruct d; auto. exfalso. apply (Mk p) in D as [D|(e' & x' & y' & P' & J' & I')].
    - apply F, Cl_marks. now exists p, e, y.
    - rewrite P in P'. injection P' as <-. assert (Jx : joins_in k s e x' y') by (split; auto).
      destruct Je as [Q|Q], J' as [Q'|Q']; destruct (edge_is_fun (snake_edges K) Q Q') as [E1 E2]; subst; auto; apply Nx; eapply M; eauto. }
  destruct (cut_snake C Jr) as (Nyx & f & b & If & Sb & Xb). destruct (cut_snake C J) as (_ & fa & a & Ifa & Sa & Xa).
  destruct (move_snaxel If Sb) as (Ef & Vb & Insb). rewrite Xb in *. exists (sx_from b), f. split; auto.
  assert (Ny : ~ In (t_snake, y) (wk_corners w)) by (intros I; apply Nx; eapply M; eauto).
  assert (Axy : adj (t_snake, x) (t_snake, y)) by (now apply by_snake with e).
  assert (Fy : ~ Cl (t_snake, y)) by (eapply fresh_adj; eauto).
  assert (Gx : good (t_snake, x)) by (left; split; [easy|now exists fa, a]).
  assert (Gy : good (t_snake, y)) by (left; split; [easy|now exists f, b]).
  assert (Ayb : adj (t_snake, y) (t_mesh, sx_from b)) by (apply adj_sym; eapply via_adj; eauto).
  constructor; unfold node; cbn [wk_type wk_index wk_edge wk_corners wk_n wk_done wk_p1 wk_p2].
  - now rewrite upd_length.
  - exact Tl.
  - constructor; [intros [I|I]; [injection I as ->; congruence|easy]|]. constructor; auto.
  - apply chain_cons; [now apply adj_sym|]. destruct Hd as [->|(h & H0 & Ah)]; [intros [|i] ? ? X Y; cbn in X, Y; [discriminate|now destruct i]|].
    destruct (wk_corners w) as [|h' r]; [discriminate|]. cbn in H0. injection H0 as ->. apply chain_cons; auto. now apply adj_sym.
  - intros c [<-|[<-|I]]; auto.
  - split; [eapply adj_good; eauto|eapply fresh_adj; eauto].
  - exists (t_snake, y), (t_snake, x), (wk_corners w). split; auto. split; auto. split; [intros X; injection X as X _; types X|].
    split; [auto|intros X; types X].
  - intros g u v Jg [I|[I|I]].
    + injection I as <-. destruct (mate_unique Jr Jg) as [_ ->]. right. now left.
    + injection I as <-. destruct (mate_unique J Jg) as [_ ->]. now left.
    + right; right. eapply M; eauto.
  - intros q. rewrite nth_error_upd. destruct (Nat.eqb_spec p q) as [<-|Nq].
    + replace (p <? length (wk_done w))%nat with true by (symmetry; apply Nat.ltb_lt; lia). split; auto. intros _. right. exists e, x, y. repeat split; auto. right; now left.
    + rewrite (Mk q). split; (intros [H|(e' & x' & y' & P' & J' & I')]; [now left|right; exists e', x', y'; split; [exact P'|split; [exact J'|]]]).
      * now right; right.
      * destruct I' as [I'|[I'|I']]; auto; exfalso; injection I' as <-; (assert (J'' : joins_in k s e' _ y') by (split; [eapply nth_error_In; eauto|exact J'])).
        -- destruct (mate_unique Jr J'') as [-> _]. apply Nq. eapply place_inj; eauto.
        -- destruct (mate_unique J J'') as [-> _]. apply Nq. eapply place_inj; eauto.
  - cbn [filter]. change (is_mesh (t_snake, y)) with false. change (is_mesh (t_snake, x)) with false. exact Ct.
  - intros L1. destruct (Tn L1) as (A & pr & v & nx & B & E & T). exists A, pr, v, nx, (B ++ [(t_snake, y); (t_mesh, sx_from b)]). split; [|exact T].
    cbn [rev]. rewrite <- !app_assoc. cbn [app]. rewrite app_assoc_reverse || idtac.
    change ((t_snake, x) :: (t_snake, y) :: [(t_mesh, sx_from b)]) with ([(t_snake, x)] ++ [(t_snake, y); (t_mesh, sx_from b)]). rewrite app_assoc, E, <- app_assoc. reflexivity.
Qed.
Lemma step_snaxel w : ongoing w -> wk_type w = t_snake ->
  (node w = (t_snake, a0) /\ stroll_step k m s l vp w = Ok (mkStroll t_snake a0 0 (wk_corners w) (wk_n w) (wk_done w) (wk_p1 w) (wk_p2 w), true) /\ (1 <= wk_n w)%nat) \/
  exists w', stroll_step k m s l vp w = Ok (w', false) /\ ongoing w' /\ (length (wk_corners w') > length (wk_corners w))%nat.
Proof using All.
  intros W Ty. destruct (o_head W) as (h & h2 & r & E & A & N2 & _ & Z0). destruct (Z0 Ty) as [Ze Zh]. clear Z0.
  destruct (o_node W) as [G F]. assert (En : node w = (t_snake, wk_index w)) by (unfold node; congruence). rewrite En in *.
  destruct G as [(_ & e & x & Ie & S & X)|(T & _)]; [|types T]. cbn [snd] in X.
  destruct (@move_snaxedge e x (wk_done w) 0 Ie S (o_len W)) as (f & y & p & b & J & P & Db & Ef). specialize (Ef (or_introl eq_refl)). rewrite X in *.
  unfold stroll_step. rewrite Ty. change (t_snake =? t_mesh) with false. rewrite Z.eqb_refl. cbv iota. rewrite Ze, Ef. cbn [bind].
  destruct (in_dec node_dec (t_snake, wk_index w) (wk_corners w)) as [I|I].
  - left. assert (Ea : node w = (t_snake, a0)) by (apply (again W); now rewrite En). rewrite En in Ea. split; auto. injection Ea as Ea.
    assert (L1 : (1 <= wk_n w)%nat).
    { rewrite (o_count W), E. cbn [filter]. replace (is_mesh h) with true by (unfold is_mesh; rewrite Zh; reflexivity). cbn [length]. lia. }
    assert (b = true) as ->.
    { assert (H : nth_error (wk_done w) p = Some true) by (apply (o_marks W); right; exists f, (wk_index w), y; destruct J; auto). congruence. }
    split; auto. cbn [negb]. destruct (Nat.eqb_spec (wk_n w) 0); [lia|]. rewrite (upd_true _ _ Db). rewrite Ea. reflexivity.
  - right. assert (Hd : wk_corners w = [] \/ exists h, nth_error (wk_corners w) 0 = Some h /\ adj h (t_snake, wk_index w)) by (right; exists h; rewrite E; auto).
    assert (Tn : (1 <= wk_n w)%nat -> exists A pr v nx B, rev (wk_corners w) ++ [(t_snake, wk_index w)] = A ++ pr :: (t_mesh, v) :: nx :: B /\
      via (wk_p1 w) v pr /\ via (wk_p2 w) v nx /\ wk_p1 w <> wk_p2 w) by (rewrite <- En; apply (o_turn W)).
    assert (Tl : exists r, (t_snake, y) :: (t_snake, wk_index w) :: wk_corners w = r ++ [(t_snake, b0); (t_snake, a0)])
      by (destruct (o_tail W) as [r2 ->]; now exists ((t_snake, y) :: (t_snake, wk_index w) :: r2)).
    destruct (@step_pair w f (wk_index w) y p b Hd J P (o_len W) (o_nodup W) (o_chain W) (o_good W) F (o_mated W) (o_marks W) (o_count W) Tn Tl I Db) as (-> & nx & ed & Fs & W').
    cbn [negb]. rewrite Fs. cbn [bind]. change (t_mesh =? t_snake) with false. cbv iota. eexists. split; [reflexivity|]. split; [exact W'|]. cbn [wk_corners length]. lia.
Qed.
Definition ended (w' : stroll) : Prop :=
  exists w, ongoing w /\ node w = (t_snake, a0) /\ (1 <= wk_n w)%nat /\
    w' = mkStroll t_snake a0 0 (wk_corners w) (wk_n w) (wk_done w) (wk_p1 w) (wk_p2 w).
Lemma loop_ended n : forall w, ongoing w -> (2 * length l + 1 <= n + length (wk_corners w))%nat ->
  exists w', stroll_loop n k m s l vp w = Ok w' /\ ended w'.
Proof using All.
  induction n as [|n IH]; intros w W Ln.
  - assert (B := good_bound (o_nodup W) (fun a Ia => proj1 (o_good W a Ia))). lia.
  - assert (M := mesh_bound (o_nodup W) (fun a Ia => proj1 (o_good W a Ia))). rewrite <- (o_count W) in M.
    cbn [stroll_loop]. replace (wk_n w <? length l + 2)%nat with true by (symmetry; apply Nat.ltb_lt; lia).
    assert (Go : (exists w', stroll_step k m s l vp w = Ok (w', false) /\ ongoing w' /\ (length (wk_corners w') > length (wk_corners w))%nat) ->
      exists w', (do r <- stroll_step k m s l vp w ; if snd r then Ok (fst r) else stroll_loop n k m s l vp (fst r)) = Ok w' /\ ended w').
    { intros (w' & E & W' & Gt). rewrite E. cbn [bind fst snd]. apply IH; auto. lia. }
    destruct (o_node W) as [[(Ty & _)|(Ty & _)] _]; cbn [node fst] in Ty.
    + destruct (step_snaxel W Ty) as [(En & E & L1)|H]; [|now apply Go].
      rewrite E. cbn [bind fst snd]. eexists. split; [reflexivity|]. exists w. auto.
    + apply Go. now apply step_vertex.
Qed.
Lemma walk_ended n p1 p2 : (2 * length l + 1 <= n)%nat ->
  exists w', stroll_loop n k m s l vp (mkStroll t_snake a0 e0 [] 0 done0 p1 p2) = Ok w' /\ ended w'.
Proof using All.
  intros Ln. destruct n as [|n]; [lia|]. cbn [stroll_loop wk_n]. replace (0 <? length l + 2)%nat with true by (symmetry; apply Nat.ltb_lt; lia).
  destruct (cut_snake C Start) as (_ & f & x & If & S & X).
  destruct (@move_snaxedge f x done0 e0 If S Len0) as (g & y & p & b & J & P & Db & Ef). rewrite X in *.
  destruct (mate_unique Start J) as [-> ->]. specialize (Ef (or_intror eq_refl)).
  unfold stroll_step. cbn [wk_type wk_index wk_edge wk_corners wk_n wk_done wk_p1 wk_p2]. change (t_snake =? t_mesh) with false. rewrite Z.eqb_refl. cbv iota. rewrite Ef. cbn [bind].
  set (w := mkStroll t_snake a0 e0 [] 0 done0 p1 p2).
  destruct (@step_pair w e0 a0 b0 p b) as (-> & nx & ed & Fs & W'); cbn [w wk_type wk_index wk_edge wk_corners wk_n wk_done wk_p1 wk_p2]; auto.
  - constructor.
  - intros [|i] a c H; discriminate.
  - intros a [].
  - intros q. split; [now left|]. intros [H|(? & ? & ? & _ & _ & [])]; auto.
  - intros H. lia.
  - now exists [].
  - cbn [negb]. rewrite Fs. cbn [bind fst snd]. change (t_mesh =? t_snake) with false. cbv iota. apply loop_ended; auto.
    cbn [wk_corners w length]. lia.
Qed.
(** What the walk has seen *)
Lemma nth_rev {A} (L : list A) i : (i < length L)%nat -> nth_error (rev L) i = nth_error L (length L - 1 - i).
Proof.
  intros H. destruct (nth_error L (length L - 1 - i)) as [a|] eqn:E; [|apply nth_error_None in E; lia].
  assert (D := nth_error_nth _ _ a E). rewrite <- D. rewrite (nth_error_nth' (rev L) a) by now rewrite rev_length. f_equal.
  rewrite rev_nth by lia. f_equal. lia.
Qed.
Lemma ended_cycle w : ongoing w -> node w = (t_snake, a0) -> closed_walk adj (rev (wk_corners w)).
Proof using All.
  intros W En. destruct (o_head W) as (h & h2 & r & E & A & N2 & _). rewrite En in A, N2.
  destruct (o_tail W) as [r0 E0]. set (L := wk_corners w) in *.
  assert (L3 : (3 <= length L)%nat).
  { rewrite E0 in E |- *. rewrite app_length. destruct r0 as [|z r0]; [|cbn; lia]. cbn in E. injection E as E1 E2 _. congruence. }
  split; [now rewrite rev_length|]. split; [apply NoDup_rev; apply W|].
  intros i a b Ha Hb. rewrite rev_length in Hb.
  assert (Li : (i < length L)%nat) by (rewrite <- rev_length; apply nth_error_Some; congruence).
  rewrite nth_rev in Ha by auto.
  destruct (Nat.eq_dec (i + 1) (length L)) as [El|Nl].
  - rewrite El, Nat.mod_same in Hb by lia. rewrite nth_rev in Hb by lia.
    replace (length L - 1 - i)%nat with 0%nat in Ha by lia. rewrite E in Ha. cbn in Ha. injection Ha as <-.
    replace (length L - 1 - 0)%nat with (length (r0 ++ [(t_snake, b0)])) in Hb by (rewrite E0, !app_length; cbn; lia).
    rewrite E0 in Hb. change [(t_snake, b0); (t_snake, a0)] with ([(t_snake, b0)] ++ [(t_snake, a0)]) in Hb. rewrite app_assoc, nth_error_app2, Nat.sub_diag in Hb by lia.
    cbn in Hb. injection Hb as <-. exact A.
  - rewrite Nat.mod_small in Hb by lia. rewrite nth_rev in Hb by lia.
    apply adj_sym. apply (o_chain W (length L - 1 - (i + 1))%nat); auto. now replace (S (length L - 1 - (i + 1))) with (length L - 1 - i)%nat by lia.
Qed.
Lemma cycle_closed L : closed_walk adj L -> (forall a, In a L -> good a) -> forall a b, In a L -> adj a b -> In b L.
Proof using Hu K C.
  clear Cl_marks Cl_closed Len0 Start Fresh Cl. intros (L3 & N & Cy) G a b Ia A. assert (Ga := G a Ia). apply In_nth_error in Ia as [i Hi].
  assert (Li : (i < length L)%nat) by (apply nth_error_Some; congruence).
  set (j := if (i =? 0)%nat then (length L - 1)%nat else (i - 1)%nat).
  assert (Lj : (j < length L)%nat) by (unfold j; destruct (Nat.eqb_spec i 0); lia).
  assert (Ej : ((j + 1) mod length L = i)%nat).
  { unfold j. destruct (Nat.eqb_spec i 0) as [->|Ni]; [replace (length L - 1 + 1)%nat with (length L) by lia; apply Nat.mod_same; lia|].
    replace (i - 1 + 1)%nat with i by lia. now apply Nat.mod_small. }
  destruct (nth_error L j) as [p|] eqn:Hp; [|apply nth_error_None in Hp; lia].
  assert (Ln : ((i + 1) mod length L < length L)%nat) by (apply Nat.mod_upper_bound; lia).
  destruct (nth_error L ((i + 1) mod length L)) as [q|] eqn:Hq; [|apply nth_error_None in Hq; lia].
  destruct (@deg2 a p q b) as [E|[E|E]]; auto.
  - apply adj_sym. apply (Cy j); auto. now rewrite Ej.
  - now apply (Cy i).
  - subst q. exfalso. assert (X := nth_inj _ _ N Hp Hq). unfold j in X.
    destruct (Nat.eq_dec (i + 1) (length L)) as [El|Nl].
    + rewrite El, Nat.mod_same in X by lia. destruct (Nat.eqb_spec i 0); lia.
    + rewrite Nat.mod_small in X by lia. destruct (Nat.eqb_spec i 0); lia.
  - subst q. eapply nth_error_In; eauto.
  - subst p. eapply nth_error_In; eauto.
Qed.
(** A corner that is a vertex, with its neighbours and the edges to them *)
Lemma ended_turn w : ongoing w -> node w = (t_snake, a0) -> (1 <= wk_n w)%nat ->
  exists i pr v nx, nth_error (rev (wk_corners w)) i = Some pr /\ nth_error (rev (wk_corners w)) (i + 1) = Some (t_mesh, v) /\
    nth_error (rev (wk_corners w)) ((i + 2) mod length (wk_corners w)) = Some nx /\ via (wk_p1 w) v pr /\ via (wk_p2 w) v nx /\ wk_p1 w <> wk_p2 w.
Proof using All.
  intros W En L1. destruct (o_turn W L1) as (A & pr & v & nx & B & E & V1 & V2 & Np). rewrite En in E. set (L := wk_corners w) in *.
  exists (length A), pr, v, nx.
  assert (Len : (length L + 1 = length A + 3 + length B)%nat) by (assert (X := f_equal (@length _) E); rewrite !app_length, rev_length in X; cbn in X; lia).
  assert (At : forall j, (j < length L)%nat -> nth_error (rev L) j = nth_error (A ++ pr :: (t_mesh, v) :: nx :: B) j).
  { intros j Lj. rewrite <- E, nth_error_app1; auto. now rewrite rev_length. }
  split; [rewrite At by lia; rewrite nth_error_app2, Nat.sub_diag by lia; reflexivity|].
  split; [rewrite At by lia; rewrite nth_error_app2 by lia; now replace (length A + 1 - length A)%nat with 1%nat by lia|].
  split; [|auto]. destruct (Nat.eq_dec (length A + 2) (length L)) as [El|Nl].
  - rewrite El, Nat.mod_same by lia.
    assert (B = []) as -> by (destruct B; [easy|cbn in Len; lia]).
    assert (X : nx = (t_snake, a0)).
    { change (A ++ [pr; (t_mesh, v); nx]) with (A ++ [pr; (t_mesh, v)] ++ [nx]) in E. rewrite app_assoc in E. now apply app_inj_tail in E as [_ <-]. }
    rewrite X. destruct (o_tail W) as [r0 E0]. fold L in E0. rewrite E0, rev_app_distr. reflexivity.
  - rewrite Nat.mod_small by lia. rewrite At by lia. rewrite nth_error_app2 by lia. now replace (length A + 2 - length A)%nat with 2%nat by lia.
Qed.
End Walk.
