(** Keeping the triangulation up to date. *)
From Coq Require Import Reals List Lia ZArith Bool.
From Verif Require Import Base FloodProofs MeshProofs MergeProofs Containers Mesh Order Edit Family SpecMesh SpecOrder SpecFamily PropsFamily Calc CalcProofs Triangulate SpecTriangulate TriangulateProofs PropsTriangulate SpecActive PropsActive SpecMaintain.
Import Mesh.
Set Implicit Arguments.
Open Scope Z_scope.

Lemma filter_ext_In A (f g : A -> bool) l : (forall a, In a l -> f a = g a) -> filter f l = filter g l.
Proof. induction l as [|a l IH]; intros H; cbn; auto. rewrite (H a), IH; auto with datatypes. Qed.
Lemma filter_all A (f : A -> bool) l : (forall a, In a l -> f a = true) -> filter f l = l.
Proof. induction l as [|a l IH]; intros H; cbn; auto. rewrite (H a), IH; auto with datatypes. Qed.
Lemma filter_none A (f : A -> bool) l : (forall a, In a l -> f a = false) -> filter f l = [].
Proof. induction l as [|a l IH]; intros H; cbn; auto. rewrite (H a), IH; auto with datatypes. Qed.
Lemma filter_filter A (f g : A -> bool) l : filter f (filter g l) = filter (fun a => g a && f a) l.
Proof. induction l as [|a l IH]; cbn; auto. destruct (g a); cbn; [destruct (f a)|]; rewrite ?IH; auto. Qed.
Lemma NoDup_filter_map A (ix : A -> Z) f l : NoDup (map ix l) -> NoDup (map ix (filter f l)).
Proof.
  induction l as [|a l IH]; cbn; auto. intros N. inversion N as [|? ? Na Nl]; subst. destruct (f a); cbn; auto. constructor; auto.
  intros I. apply Na. apply in_map_iff in I as (b & E & I). apply filter_In in I as [I _]. rewrite <- E. now apply List.in_map.
Qed.
Lemma max_of_ge A (ix : A -> Z) l a : In a l -> ix a <= max_of ix l.
Proof. unfold max_of. induction l as [|b l IH]; cbn; [easy|]. intros [E|I]; [rewrite E|specialize (IH I)]; match goal with |- context [?x <? ?y] => destruct (Z.ltb_spec x y) end; lia. Qed.
Lemma tidy_remove A (ix : A -> Z) del r : tidy ix r -> tidy ix (remove_all ix del r).
Proof. intros [N _]. split; cbn; [now apply NoDup_filter_map|]. intros a. apply max_of_ge. Qed.
Lemma mem_z_false x l : mem_z x l = false <-> ~ In x l.
Proof. rewrite <- not_true_iff_false, mem_z_In. tauto. Qed.

(** [fan_of] looks only at the points and the parents. *)
Lemma fan_of_map l p typ ts cs (g : face -> face) : (forall f, In f ts -> tri_pts (fc_tri (g f)) = tri_pts (fc_tri f) /\ fc_parent (g f) = fc_parent f) ->
  fan_of l p typ ts cs -> fan_of l p typ (map g ts) cs.
Proof.
  intros G [P H]. split.
  - intros f I. apply in_map_iff in I as (x & <- & I). destruct (G x I) as [_ ->]. auto.
  - destruct H as [(L & M & C)|(L & Lt & c & Ec & Pc & Tc & F)]; [left|right].
    + split; auto. split; auto. rewrite map_map, <- M. apply map_ext_in. intros f I. now apply G.
    + split; auto. rewrite map_length. split; auto. exists c. split; auto. split; auto. split; auto. intros i f Hf.
      rewrite nth_error_map in Hf. destruct (nth_error ts i) as [x|] eqn:E; [|discriminate]. injection Hf as <-. destruct (F i x E) as (a & b & Ha & Hb & T).
      exists a, b. split; auto. split; auto. destruct (G x (nth_error_In _ _ E)) as [-> _]. exact T.
Qed.
Lemma fan_points l p typ ts cs : fan_of (map (pair typ) l) p typ ts cs -> typ <> t_tri ->
  (forall f i, In f ts -> In (t_tri, i) (tri_pts (fc_tri f)) -> exists c, In c cs /\ cn_index c = i /\ cn_ptype c = typ /\ cn_parent c = fc_parent f) /\
  (forall c, In c cs -> cn_ptype c = typ /\ cn_parent c = p /\ exists f, In f ts /\ fc_parent f = cn_parent c /\ In (t_tri, cn_index c) (tri_pts (fc_tri f))).
Proof.
  intros [P H] N. destruct H as [(L & M & C)|(L & Lt & c & Ec & Pc & Tc & F)]; subst cs; split.
  - intros f i I T. exfalso. assert (E : In (tri_pts (fc_tri f)) [map (pair typ) l]) by (rewrite <- M; apply List.in_map_iff; eauto). destruct E as [E|[]]. rewrite <- E in T.
    apply in_map_iff in T as (x & E' & _). injection E' as E' _. congruence.
  - intros c [].
  - intros f i I T. apply In_nth_error in I as [j Hj]. assert (Ej := Hj). destruct (F j f Hj) as (a & b & Ha & Hb & E). rewrite E in T.
    assert (X : forall q, nth_error (map (pair typ) l) j = Some q \/ nth_error (map (pair typ) l) ((j + 1) mod length (map (pair typ) l)) = Some q -> fst q = typ).
    { intros q [Q|Q]; apply nth_error_In, in_map_iff in Q as (x & <- & _); reflexivity. }
    assert (A := X a (or_introl Ha)). assert (B := X b (or_intror Hb)).
    destruct T as [T|[T|[T|[]]]]; [subst a; cbn in A; congruence|subst b; cbn in B; congruence|]. injection T as <-. exists c. split; [now left|]. split; auto. split; auto.
    rewrite Pc. symmetry. apply P. eapply nth_error_In; eauto.
  - intros d [<-|[]]. split; auto. split; auto. destruct ts as [|f ts]; [cbn in Lt; rewrite <- Lt in L; lia|]. exists f. split; [now left|]. split; [rewrite Pc; apply P; now left|].
    destruct (F 0%nat f eq_refl) as (a & b & _ & _ & ->). cbn. auto.
Qed.

Section Clean.
Variables (k : snk) (t : tris).
Hypothesis O : in_order t.
Let old := filter (stale k) (items (t_dyna t)).
Let gone (s : Z) : Prop := (forall su, In su (surfs (sk_conn k)) -> su_index su <> s) \/ In s (sk_modif k).
Lemma stale_gone f : stale k f = true <-> gone (fc_parent f).
Proof using.
  unfold stale, gone. rewrite orb_true_iff, mem_z_In. split; (intros [H|H]; [left|right; auto]).
  - apply Z.eqb_eq in H. intros su I E. destruct (@find_at _ su_index (surfs (sk_conn k)) (fc_parent f)) as (y & Hy & _); [exists su; auto|].
    rewrite H in Hy. discriminate.
  - destruct (find_spec su_index (surfs (sk_conn k)) (fc_parent f)) as [[E N]|(j & su & E & Hj & Es)]; [now rewrite E|]. exfalso. apply (H su); auto. eapply nth_error_In; eauto.
Qed.
Lemma clean_items : items (t_dyna (clean_dyna k t)) = filter (fun f => negb (stale k f)) (items (t_dyna t)).
Proof using O.
  cbn. apply filter_ext_In. intros f I. f_equal. destruct (stale k f) eqn:S.
  - apply mem_z_In. apply List.in_map. apply filter_In. auto.
  - apply mem_z_false. intros X. apply in_map_iff in X as (g & E & X). apply filter_In in X as [Ig Sg].
    assert (g = f) as -> by (eapply (@NoDup_idx_inj _ fc_index); eauto; apply (ord_dyna O)). congruence.
Qed.
Lemma clean_tris s : snake_tris (clean_dyna k t) s = if mem_z s (map fc_parent old) then [] else snake_tris t s.
Proof using O.
  unfold snake_tris. rewrite clean_items, filter_filter. destruct (mem_z s (map fc_parent old)) eqn:M.
  - apply filter_none. intros f I. apply mem_z_In, in_map_iff in M as (g & E & Ig). apply filter_In in Ig as [Ig Sg]. destruct (Z.eqb_spec (fc_parent f) s) as [Ef|]; [|apply andb_false_r].
    apply stale_gone in Sg. rewrite E, <- Ef in Sg. apply stale_gone in Sg. now rewrite Sg.
  - apply filter_ext_In. intros f I. destruct (Z.eqb_spec (fc_parent f) s) as [Ef|]; [|apply andb_false_r]. rewrite andb_true_r.
    destruct (stale k f) eqn:S; auto. apply mem_z_false in M. exfalso. apply M. rewrite <- Ef. apply List.in_map. apply filter_In. auto.
Qed.
Lemma deleted c : In c (items (t_vert t)) ->
  mem_z (cn_index c) (centres_in old ++ map cn_index (filter (fun c => cn_ptype c =? t_tri) (items (t_vert t)))) = true <->
  (cn_ptype c = t_snake /\ gone (cn_parent c)) \/ cn_ptype c = t_tri.
Proof using O.
  intros I. rewrite mem_z_In, in_app_iff. assert (N := proj1 (ord_vert O)). split.
  - intros [X|X].
    + unfold centres_in in X. apply in_flat_map in X as (f & If & X). apply in_map_iff in X as ((ty & i) & Ei & X). apply filter_In in X as [X Ty]. cbn in Ei, Ty. apply Z.eqb_eq in Ty. subst ty i.
      apply filter_In in If as [If Sf]. destruct (ord_used O f _ If X) as (d & Id & Ed & Td & Pd). assert (d = c) as -> by (eapply (@NoDup_idx_inj _ cn_index); eauto).
      left. split; auto. rewrite Pd. now apply stale_gone.
    + apply in_map_iff in X as (d & Ed & X). apply filter_In in X as [Id Td]. assert (d = c) as -> by (eapply (@NoDup_idx_inj _ cn_index); eauto). right. now apply Z.eqb_eq.
  - intros [[T G]|T].
    + left. destruct (ord_needed O c I T) as (f & If & Pf & X). apply in_flat_map. exists f. split; [apply filter_In; split; auto; apply stale_gone; now rewrite Pf|].
      apply in_map_iff. exists (t_tri, cn_index c). split; auto. apply filter_In. split; auto.
    + right. apply List.in_map. apply filter_In. split; auto. now apply Z.eqb_eq.
Qed.
Lemma clean_verts c : In c (items (t_vert (clean_dyna k t))) <-> In c (items (t_vert t)) /\ ~ (cn_ptype c = t_snake /\ gone (cn_parent c)) /\ cn_ptype c <> t_tri.
Proof using O.
  cbn. fold old. rewrite filter_In. split.
  - intros [I D]. split; auto. apply negb_true_iff in D. rewrite <- not_true_iff_false in D. rewrite (deleted c I) in D. tauto.
  - intros (I & A & B). split; auto. apply negb_true_iff. rewrite <- not_true_iff_false. rewrite (deleted c I). tauto.
Qed.
Lemma clean_filter g : (forall c, In c (items (t_vert t)) -> g c = true -> ~ (cn_ptype c = t_snake /\ gone (cn_parent c)) /\ cn_ptype c <> t_tri) ->
  filter g (items (t_vert (clean_dyna k t))) = filter g (items (t_vert t)).
Proof using O.
  intros G. cbn. fold old. rewrite filter_filter. apply filter_ext_In. intros c I. destruct (g c) eqn:E; [|apply andb_false_r]. rewrite andb_true_r.
  apply negb_true_iff. rewrite <- not_true_iff_false. rewrite (deleted c I). destruct (G c I E). tauto.
Qed.
Lemma clean_centres s : (~ gone s -> snake_centres (clean_dyna k t) s = snake_centres t s) /\ (gone s -> snake_centres (clean_dyna k t) s = []).
Proof using O.
  split; intros G; unfold snake_centres.
  - apply clean_filter. intros c I E. apply andb_true_iff in E as [A B]. apply Z.eqb_eq in A, B. rewrite B. split; [tauto|]. rewrite A. discriminate.
  - apply filter_none. intros c I. apply clean_verts in I as (_ & N & _). destruct (Z.eqb_spec (cn_ptype c) t_snake); auto. destruct (Z.eqb_spec (cn_parent c) s); auto. subst s. tauto.
Qed.
Lemma clean_gone s : gone s -> snake_tris (clean_dyna k t) s = [].
Proof using O.
  intros G. unfold snake_tris. rewrite clean_items, filter_filter. apply filter_none. intros f I. destruct (Z.eqb_spec (fc_parent f) s) as [<-|]; [|apply andb_false_r].
  apply stale_gone in G. now rewrite G.
Qed.
Lemma clean_alive s : ~ gone s -> snake_tris (clean_dyna k t) s = snake_tris t s.
Proof using O.
  intros G. rewrite clean_tris. destruct (mem_z s (map fc_parent old)) eqn:M; auto. exfalso. apply G. apply mem_z_In, in_map_iff in M as (f & <- & I). apply filter_In in I as [_ S]. now apply stale_gone.
Qed.
Lemma clean_order : in_order (clean_dyna k t).
Proof using O.
  constructor.
  - apply tidy_remove, O.
  - apply tidy_remove, O.
  - intros f i I X. rewrite clean_items in I. apply filter_In in I as [I S]. destruct (ord_used O f i I X) as (c & Ic & E & T & P). exists c. split; auto. apply clean_verts.
    split; auto. split; [|rewrite T; discriminate]. intros [_ G]. rewrite P in G. apply stale_gone in G. rewrite G in S. discriminate.
  - intros c I T. apply clean_verts in I as (I & N & _). destruct (ord_needed O c I T) as (f & If & P & X). exists f. split; auto. rewrite clean_items. apply filter_In. split; auto.
    destruct (stale k f) eqn:S; auto. apply stale_gone in S. rewrite P in S. tauto.
  - intros f i I X. destruct (ord_mesh O f i I X) as (c & Ic & E & T). exists c. split; auto. apply clean_verts. split; auto. rewrite T. split; [intros [? _]; discriminate|discriminate].
  - apply O.
Qed.
Lemma clean_none : forall f, In f (items (t_dyna (clean_dyna k t))) -> ~ gone (fc_parent f).
Proof using O. intros f I. rewrite clean_items in I. apply filter_In in I as [_ S]. intros G. apply stale_gone in G. rewrite G in S. discriminate. Qed.
End Clean.
