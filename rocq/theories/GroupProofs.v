(** Lemmas on the grouping of close vertices: the depth-first search. *)
From Verif Require Import Base Containers Mesh GeomProofs.
Set Implicit Arguments.

Definition isd (dn : list bool) (q : nat) : Prop := nth_error dn q = Some true.
Fixpoint undone (dn : list bool) : nat :=
  match dn with [] => 0 | true :: r => undone r | false :: r => S (undone r) end.
Lemma undone_mono : forall dn dn', length dn' = length dn -> (forall q, isd dn q -> isd dn' q) ->
  (undone dn' <= undone dn)%nat.
Proof.
  induction dn as [|b r IH]; intros [|b' r'] Hl H; simpl in *; try lia.
  assert (R : (undone r' <= undone r)%nat) by (apply IH; [lia | intros q Hq; exact (H (S q) Hq)]).
  destruct b, b'; try lia. specialize (H 0%nat eq_refl). discriminate H.
Qed.
Lemma undone_upd : forall dn p, nth_error dn p = Some false -> S (undone (upd dn p true)) = undone dn.
Proof.
  induction dn as [|b r IH]; intros [|p] H; simpl in *; try discriminate.
  - injection H as ->. reflexivity.
  - destruct b; rewrite <- (IH p H); reflexivity.
Qed.
Lemma isd_upd dn p q : isd (upd dn p true) q <-> isd dn q \/ (q = p /\ (p < length dn)%nat).
Proof.
  unfold isd. rewrite nth_error_upd. destruct (Nat.eqb_spec p q) as [<-|N].
  - destruct (Nat.ltb_spec p (length dn)); split; auto; try tauto.
    + intro H1. discriminate.
    + intros [H1|[_ H1]]; [|lia]. assert (p < length dn)%nat by (apply nth_error_Some; congruence). lia.
  - split; auto. intros [H|[-> _]]; congruence.
Qed.
Lemma isd_dec dn q : {isd dn q} + {~ isd dn q}.
Proof. unfold isd. destruct (nth_error dn q) as [[|]|]; [left; auto | right; congruence | right; congruence]. Qed.

Lemma undone_le dn : (undone dn <= length dn)%nat.
Proof. induction dn as [|[|] r IH]; simpl; lia. Qed.

Section Dfs.
Variable n : nat.
Variable inc : nat -> list Z.
Variable sb : Z -> bool.
Variable ea eb : Z -> nat.
Hypothesis ends_in : forall p e, (p < n)%nat -> In e (inc p) -> sb e = true -> (ea e < n)%nat /\ (eb e < n)%nat.

Fixpoint dfs (fuel : nat) (p : nat) (st : list bool * list Z) : outcome (list bool * list Z) :=
  match fuel with
  | O => OutOfFuel
  | S f =>
      match nth_error (fst st) p with
      | None => UB
      | Some true => Ok st
      | Some false =>
          for_each (inc p) (fun e s =>
            if sb e then
              do s1 <- dfs f (ea e) (fst s, snd s ++ [e]); dfs f (eb e) s1
            else Ok s) (upd (fst st) p true, snd st)
      end
  end.

Definition hop (p q : nat) : Prop := exists e, In e (inc p) /\ sb e = true /\ (q = ea e \/ q = eb e).
Inductive conn (p : nat) : nat -> Prop :=
| conn_refl : conn p p
| conn_hop q r : conn p q -> hop q r -> conn p r.
Lemma conn_trans p q r : conn p q -> conn q r -> conn p r.
Proof. intros H1 H2. induction H2; auto. eapply conn_hop; eauto. Qed.

(** [q]'s short edges are all recorded and lead to visited nodes. *)
Definition closed (dn : list bool) (sm : list Z) (q : nat) : Prop :=
  forall e, In e (inc q) -> sb e = true -> In e sm /\ isd dn (ea e) /\ isd dn (eb e).
Definition grows (dn : list bool) (sm : list Z) (dn' : list bool) (sm' : list Z) (new : list Z) : Prop :=
  length dn' = length dn /\ (forall q, isd dn q -> isd dn' q) /\ sm' = sm ++ new.
Lemma closed_mono dn sm dn' sm' new q : grows dn sm dn' sm' new -> closed dn sm q -> closed dn' sm' q.
Proof.
  intros [_ [H1 ->]] H2 e He Hs. destruct (H2 e He Hs) as [A [B C]]. rewrite in_app_iff. auto.
Qed.

Lemma dfs_ok : forall fuel p dn sm, (p < n)%nat -> length dn = n -> (undone dn < fuel)%nat ->
  exists dn' sm' new, dfs fuel p (dn, sm) = Ok (dn', sm') /\ grows dn sm dn' sm' new /\ isd dn' p /\
    (forall q, isd dn' q -> ~ isd dn q -> conn p q /\ closed dn' sm' q) /\
    (forall e, In e new -> sb e = true /\ exists q, isd dn' q /\ ~ isd dn q /\ In e (inc q)).
Proof.
  induction fuel as [|f IH]; intros p dn sm Hp Hlen Hfuel; [lia|]. cbn [dfs fst snd].
  destruct (nth_error dn p) as [[|]|] eqn:E.
  - exists dn, sm, []. split; [reflexivity|]. split; [split; [reflexivity|]; split; [auto | rewrite app_nil_r; reflexivity]|].
    split; [exact E|]. split; [intros q H1 H2; contradiction|]. intros e [].
  - pose proof (undone_upd dn p E) as Hu.
    set (body := fun e s => if sb e then do s1 <- dfs f (ea e) (fst s, snd s ++ [e]); dfs f (eb e) s1 else Ok s).
    assert (Loop : forall es, (forall e, In e es -> In e (inc p)) -> forall d s, length d = n -> (undone d < f)%nat ->
      exists d' s' new, for_each es body (d, s) = Ok (d', s') /\ grows d s d' s' new /\
        (forall e, In e es -> sb e = true -> In e s' /\ isd d' (ea e) /\ isd d' (eb e)) /\
        (forall q, isd d' q -> ~ isd d q -> conn p q /\ closed d' s' q) /\
        (forall e, In e new -> sb e = true /\ (In e es \/ exists q, isd d' q /\ ~ isd d q /\ In e (inc q)))).
    { induction es as [|e r IHr]; intros Hin d s Hd Hud.
      - exists d, s, []. split; [reflexivity|]. split; [split; [reflexivity|]; split; [auto | rewrite app_nil_r; reflexivity]|].
        split; [intros e []|]. split; [intros q H1 H2; contradiction | intros e []].
      - cbn [for_each]. unfold body at 1. destruct (sb e) eqn:Es.
        + destruct (@ends_in p e Hp (Hin e (or_introl eq_refl)) Es) as [Ha Hb].
          destruct (IH (ea e) d (s ++ [e]) Ha Hd ltac:(lia)) as [d1 [s1 [n1 [R1 [G1 [D1 [C1 N1]]]]]]].
          cbn [fst snd]. rewrite R1. cbn [bind].
          assert (Hu1 : (undone d1 <= undone d)%nat) by (apply undone_mono; apply G1).
          assert (Hl1 : length d1 = n) by (destruct G1; lia).
          destruct (IH (eb e) d1 s1 Hb Hl1 ltac:(lia)) as [d2 [s2 [n2 [R2 [G2 [D2 [C2 N2]]]]]]].
          rewrite R2. cbn [bind].
          assert (Hl2 : length d2 = n) by (destruct G2; lia).
          assert (Hu2 : (undone d2 <= undone d1)%nat) by (apply undone_mono; apply G2).
          destruct (IHr (fun x Hx => Hin x (or_intror Hx)) d2 s2 Hl2 ltac:(lia)) as [d3 [s3 [n3 [R3 [G3 [P3 [C3 N3]]]]]]].
          exists d3, s3, ([e] ++ n1 ++ n2 ++ n3). split; [exact R3|].
          destruct G1 as [L1 [M1 S1]]. destruct G2 as [L2 [M2 S2]]. pose proof G3 as G3'. destruct G3 as [L3 [M3 S3]].
          assert (G2' : grows d1 s1 d2 s2 n2) by (split; auto).
          split; [split; [lia|]; split; [auto|]; rewrite S3, S2, S1, <- !app_assoc; reflexivity|].
          assert (Hope : forall q, conn (ea e) q \/ conn (eb e) q -> conn p q).
          { intros q [H|H]; eapply conn_trans; try exact H; eapply conn_hop; try apply conn_refl;
            exists e; split; auto; apply Hin; simpl; auto. }
          split; [|split].
          * intros x [<-|Hx] Hs; [|apply P3; auto]. split; [|split].
            -- rewrite S3, S2, S1, !in_app_iff. simpl. auto 9.
            -- apply M3, M2. exact D1.
            -- apply M3. exact D2.
          * intros q H1 H2. destruct (isd_dec d2 q) as [I2|I2]; [|apply C3; auto].
            destruct (isd_dec d1 q) as [I1|I1].
            -- destruct (C1 q I1 H2) as [K1 K2]. split; [apply Hope; auto|].
               eapply closed_mono; [exact G3'|]. eapply closed_mono; [exact G2'|]. exact K2.
            -- destruct (C2 q I2 I1) as [K1 K2]. split; [apply Hope; auto|].
               eapply closed_mono; [exact G3'|]. exact K2.
          * intros x Hx. rewrite !in_app_iff in Hx. destruct Hx as [[<-|[]]|[Hx|[Hx|Hx]]].
            -- split; auto. left; simpl; auto.
            -- destruct (N1 x Hx) as [K [q [Q1 [Q2 Q3]]]]. split; auto. right. exists q. auto 9.
            -- destruct (N2 x Hx) as [K [q [Q1 [Q2 Q3]]]]. split; auto. right. exists q. auto 9.
            -- destruct (N3 x Hx) as [K [Q|[q [Q1 [Q2 Q3]]]]]; (split; [exact K|]); [left; simpl; auto|].
               right. exists q. auto 9.
        + cbn [bind]. destruct (IHr (fun x Hx => Hin x (or_intror Hx)) d s Hd Hud) as [d3 [s3 [n3 [R3 [G3 [P3 [C3 N3]]]]]]].
          exists d3, s3, n3. split; [exact R3|]. split; [exact G3|]. split; [|split; [exact C3|]].
          * intros x [<-|Hx] Hs; [congruence | apply P3; auto].
          * intros x Hx. destruct (N3 x Hx) as [K [Q|Q]]; (split; [exact K|]); [left; simpl; auto | right; exact Q]. }
    destruct (Loop (inc p) (fun e H => H) (upd dn p true) sm) as [d' [s' [new [R [G [P [C N]]]]]]].
    + rewrite upd_length. exact Hlen.
    + lia.
    + destruct G as [L [M S0]]. rewrite upd_length in L.
      assert (Hpd : isd d' p) by (apply M, isd_upd; right; split; auto; lia).
      exists d', s', new. split; [exact R|]. split; [|split; [exact Hpd|split]].
      * split; auto. split; auto. intros q Hq. apply M, isd_upd. auto.
      * intros q H1 H2. destruct (Nat.eq_dec q p) as [->|Nq].
        -- split; [apply conn_refl|]. intros e He Hs. apply P; auto.
        -- apply C; auto. rewrite isd_upd. tauto.
      * intros e He. destruct (N e He) as [K [Q|[q [Q1 [Q2 Q3]]]]]; (split; [exact K|]).
        -- exists p. split; auto. split; auto. unfold isd. congruence.
        -- exists q. split; auto. split; auto. intro Hq. apply Q2, isd_upd. auto.
  - exfalso. apply nth_error_None in E. lia.
Qed.

(** ** The loop over the vertices *)
Hypothesis inc_end : forall p e, (p < n)%nat -> In e (inc p) -> sb e = true -> p = ea e \/ p = eb e.
Hypothesis end_inc : forall p e, (p < n)%nat -> In e (inc p) -> sb e = true -> In e (inc (ea e)) /\ In e (inc (eb e)).

Definition paint (k e : Z) (lab : list Z) : list Z := upd (upd lab (ea e) k) (eb e) k.
Definition top (i : nat) (s : list bool * list Z * Z) : outcome (list bool * list Z * Z) :=
  let '(dn, lab, k) := s in
  do (dn1, sm) <- dfs (2 + n) i (dn, []);
  match sm with
  | [] => Ok (dn1, lab, k)
  | _ => Ok (dn1, fold_left (fun l e => paint k e l) sm lab, k + 1)%Z
  end.

Lemma conn_in p q : (p < n)%nat -> conn p q -> (q < n)%nat.
Proof.
  intros Hp H. induction H as [|q r H IH [e [He [Hs Hr]]]]; auto.
  destruct (@ends_in q e IH He Hs). destruct Hr as [-> | ->]; auto.
Qed.
Lemma hop_sym p q : (p < n)%nat -> hop p q -> hop q p.
Proof.
  intros Hp [e [He [Hs Hq]]]. exists e. destruct (end_inc Hp He Hs) as [A B].
  split; [destruct Hq as [-> | ->]; auto|]. split; [exact Hs|]. apply (inc_end Hp He Hs).
Qed.
Lemma conn_sym p q : (p < n)%nat -> conn p q -> conn q p.
Proof.
  intros Hp H. induction H as [|q r H IH Hh]; [apply conn_refl|].
  eapply conn_trans; [|exact IH]. eapply conn_hop; [apply conn_refl|]. apply hop_sym; auto. eapply conn_in; eauto.
Qed.
Definition has_short (q : nat) : Prop := exists e, In e (inc q) /\ sb e = true.
Lemma conn_short p q : conn p q -> p <> q -> has_short p.
Proof.
  intros H. induction H as [|q r H IH [e [He [Hs Hr]]]]; intro N; [congruence|].
  destruct (Nat.eq_dec p q) as [<-|Npq]; [exists e; auto | apply IH; auto].
Qed.

Lemma paint_length k e lab : length (paint k e lab) = length lab.
Proof. unfold paint. rewrite !upd_length. reflexivity. Qed.
Lemma paint_nth k e lab q : (ea e < length lab)%nat -> (eb e < length lab)%nat -> (q < length lab)%nat ->
  nth_error (paint k e lab) q = (if (q =? ea e)%nat || (q =? eb e)%nat then Some k else nth_error lab q).
Proof.
  intros Ha Hb Hq. unfold paint. rewrite !nth_error_upd, upd_length, (Nat.eqb_sym (eb e)), (Nat.eqb_sym (ea e)).
  destruct (Nat.eqb_spec q (eb e)) as [->|N1]; [rewrite orb_true_r; destruct (Nat.ltb_spec (eb e) (length lab)); [auto | lia]|].
  destruct (Nat.eqb_spec q (ea e)) as [->|N2]; simpl; [destruct (Nat.ltb_spec (ea e) (length lab)); [auto | lia]|]. reflexivity.
Qed.
Lemma painted k sm : forall lab, length lab = n -> (forall e, In e sm -> (ea e < n)%nat /\ (eb e < n)%nat) ->
  let lab' := fold_left (fun l e => paint k e l) sm lab in
  length lab' = n /\ forall q, (q < n)%nat ->
    ((exists e, In e sm /\ (q = ea e \/ q = eb e)) /\ nth_error lab' q = Some k) \/
    (~ (exists e, In e sm /\ (q = ea e \/ q = eb e)) /\ nth_error lab' q = nth_error lab q).
Proof.
  induction sm as [|e r IH]; intros lab Hl He; simpl.
  - split; auto. intros q Hq. right. split; auto. intros [e [[] _]].
  - destruct (He e (or_introl eq_refl)) as [Ha Hb].
    destruct (IH (paint k e lab)) as [L P]; [rewrite paint_length; auto | intros; apply He; simpl; auto|].
    split; auto. intros q Hq. destruct (P q Hq) as [[[x [Hx Qx]] Ex]|[Nx Ex]].
    + left. split; auto. exists x. simpl; auto.
    + rewrite paint_nth in Ex by lia.
      destruct (Nat.eqb_spec q (ea e)) as [E1|E1]; [left; split; [exists e; simpl; auto | exact Ex]|].
      destruct (Nat.eqb_spec q (eb e)) as [E2|E2]; [left; split; [exists e; simpl; auto | exact Ex]|].
      right. split; auto. intros [x [[<-|Hx] Qx]]; [destruct Qx; congruence|]. apply Nx. exists x. auto.
Qed.

Definition lab_of (lab : list Z) (q : nat) : Z := nth q lab (-1)%Z.
Record good (i : nat) (dn : list bool) (lab : list Z) (k : Z) : Prop := {
  g_dn : length dn = n; g_lab : length lab = n; g_k : (1 <= k)%Z;
  g_seen : forall q, (q < i)%nat -> (q < n)%nat -> isd dn q;
  g_closed : forall q e, isd dn q -> In e (inc q) -> sb e = true -> isd dn (ea e) /\ isd dn (eb e);
  g_new : forall q, (q < n)%nat -> ~ isd dn q -> lab_of lab q = (-1)%Z;
  g_none : forall q, isd dn q -> (lab_of lab q <> -1 <-> has_short q)%Z;
  g_range : forall q, isd dn q -> (lab_of lab q <> -1 -> 1 <= lab_of lab q < k)%Z;
  g_same : forall q r, isd dn q -> isd dn r -> lab_of lab q <> (-1)%Z -> (lab_of lab q = lab_of lab r <-> conn q r) }.

Lemma isd_in dn q : length dn = n -> isd dn q -> (q < n)%nat.
Proof. unfold isd. intros <- H. apply nth_error_Some. congruence. Qed.

Lemma top_ok i dn lab k : (i < n)%nat -> good i dn lab k ->
  exists dn' lab' k', top i (dn, lab, k) = Ok (dn', lab', k') /\ good (S i) dn' lab' k'.
Proof.
  intros Hi [Gd Gl Gk Gs Gc Gn G0 Gr Ge]. unfold top.
  destruct (@dfs_ok (2 + n) i dn [] Hi Gd) as [dn1 [sm [new [R [[L [M S0]] [Di [C N]]]]]]].
  { pose proof (undone_le dn). lia. }
  rewrite R. cbn [bind]. simpl in S0. subst new.
  assert (L1 : length dn1 = n) by lia.
  assert (Hold : forall q r, isd dn q -> conn q r -> isd dn r).
  { intros q r Hq H. induction H as [|q' r H IH [e [He [Hs Hr]]]]; auto.
    destruct (Gc q' e IH He Hs). destruct Hr as [-> | ->]; auto. }
  assert (Hcl : forall q e, isd dn1 q -> In e (inc q) -> sb e = true -> isd dn1 (ea e) /\ isd dn1 (eb e)).
  { intros q e Hq He Hs. destruct (isd_dec dn q) as [I|I].
    - destruct (Gc q e I He Hs). auto.
    - apply (proj2 (C q Hq I) e He Hs). }
  assert (Hnew : forall q r, isd dn1 q -> ~ isd dn q -> conn q r -> isd dn1 r /\ ~ isd dn r).
  { intros q r H1 H2 H. split.
    - clear H2. induction H as [|q' r H IH [e [He [Hs Hr]]]]; auto.
      destruct (Hcl q' e IH He Hs). destruct Hr as [-> | ->]; auto.
    - intro Hr. apply H2. apply (Hold r); auto. apply conn_sym; auto. eapply isd_in; eauto. }
  assert (Hsm : forall e, In e sm -> sb e = true /\ (isd dn1 (ea e) /\ ~ isd dn (ea e)) /\ (isd dn1 (eb e) /\ ~ isd dn (eb e)) /\
                 In e (inc (ea e)) /\ In e (inc (eb e))).
  { intros e He. destruct (N e He) as [Hs [q [Q1 [Q2 Q3]]]]. split; auto.
    assert (Hq : (q < n)%nat) by (eapply isd_in; eauto).
    split; [|split].
    - apply (Hnew q); auto. eapply conn_hop; [apply conn_refl|]. exists e. auto.
    - apply (Hnew q); auto. eapply conn_hop; [apply conn_refl|]. exists e. auto.
    - apply (end_inc Hq Q3 Hs). }
  assert (Hin : forall e, In e sm -> (ea e < n)%nat /\ (eb e < n)%nat).
  { intros e He. destruct (Hsm e He) as [_ [[A _] [[B _] _]]]. split; eapply isd_in; eauto. }
  set (lab1 := fold_left (fun l e => paint k e l) sm lab).
  destruct (@painted k sm lab Gl Hin) as [Ll P]. fold lab1 in Ll, P.
  set (isnew := fun q => isd dn1 q /\ ~ isd dn q).
  assert (Hend : forall q, (exists e, In e sm /\ (q = ea e \/ q = eb e)) <-> isnew q /\ has_short q).
  { intro q. split.
    - intros [e [He Hq]]. destruct (Hsm e He) as [Hs [A [B [Ia Ib]]]].
      destruct Hq as [-> | ->]; (split; [auto | exists e; auto]).
    - intros [[H1 H2] [e [He Hs]]]. exists e.
      split; [apply (proj2 (C q H1 H2) e He Hs)|]. apply inc_end; auto. eapply isd_in; eauto. }
  assert (Plab : forall q, (q < n)%nat -> (isnew q /\ has_short q /\ lab_of lab1 q = k) \/
                            (~ (isnew q /\ has_short q) /\ lab_of lab1 q = lab_of lab q)).
  { intros q Hq. destruct (P q Hq) as [[A B]|[A B]]; rewrite Hend in A.
    - left. split; [tauto|]. split; [tauto|]. unfold lab_of. apply nth_error_nth. exact B.
    - right. split; auto. unfold lab_of. rewrite <- !nth_default_eq. unfold nth_default. rewrite B. reflexivity. }
  assert (Good : forall k', (k <= k')%Z -> ((exists e, In e sm) -> (k < k')%Z) -> good (S i) dn1 lab1 k').
  { intros k' Hk Hk'. constructor; auto; try lia.
    - intros q Hq Hn. destruct (Nat.eq_dec q i) as [->|Nq]; auto. apply M, Gs; lia.
    - intros q Hn Hd. assert (Hd' : ~ isd dn q) by (intro; apply Hd; auto).
      destruct (Plab q Hn) as [[[A _] _]|[_ ->]]; [contradiction | apply Gn; auto].
    - intros q Hq. assert (Hn : (q < n)%nat) by (eapply isd_in; eauto).
      destruct (Plab q Hn) as [[A [B ->]]|[A ->]]; [split; [auto | lia]|].
      destruct (isd_dec dn q) as [I|I]; [apply G0; auto|].
      rewrite (Gn q Hn I). split; [congruence|]. intro Hs. exfalso. apply A. split; auto. split; auto.
    - intros q Hq Hl. assert (Hn : (q < n)%nat) by (eapply isd_in; eauto).
      destruct (Plab q Hn) as [[A [B E]]|[A E]]; rewrite E in *.
      + assert (k < k')%Z; [|lia]. apply Hk'. destruct (proj2 (Hend q) (conj A B)) as [e [He _]]. eauto.
      + destruct (isd_dec dn q) as [I|I]; [specialize (Gr q I Hl); lia | rewrite (Gn q Hn I) in Hl; congruence].
    - intros q r Hq Hr Hl.
      assert (Hqn : (q < n)%nat) by (eapply isd_in; eauto). assert (Hrn : (r < n)%nat) by (eapply isd_in; eauto).
      destruct (isd_dec dn q) as [Iq|Iq], (isd_dec dn r) as [Ir|Ir].
      + destruct (Plab q Hqn) as [[[_ A] _]|[_ Eq]]; [contradiction|].
        destruct (Plab r Hrn) as [[[_ A] _]|[_ Er]]; [contradiction|]. rewrite Eq, Er in *. apply Ge; auto.
      + destruct (Plab q Hqn) as [[[_ A] _]|[_ Eq]]; [contradiction|]. rewrite Eq in *.
        assert (Hc : ~ conn q r) by (intro Hc; apply Ir; eapply Hold; eauto).
        split; [|contradiction]. intro E. exfalso. pose proof (Gr q Iq Hl).
        destruct (Plab r Hrn) as [[_ [_ Er]]|[_ Er]]; rewrite Er in E; [lia|].
        rewrite (Gn r Hrn Ir) in E. congruence.
      + destruct (Plab r Hrn) as [[[_ A] _]|[_ Er]]; [contradiction|]. rewrite Er in *.
        assert (Hc : ~ conn q r) by (intro Hc; destruct (Hnew q r Hq Iq Hc); contradiction).
        split; [|contradiction]. intro E. exfalso.
        destruct (Plab q Hqn) as [[_ [_ Eq]]|[_ Eq]]; rewrite Eq in *.
        * destruct (Z.eq_dec (lab_of lab r) (-1)) as [Em|Em]; [lia|]. pose proof (Gr r Ir Em). lia.
        * rewrite (Gn q Hqn Iq) in Hl. congruence.
      + assert (Hc : conn q r).
        { eapply conn_trans; [|apply (C r Hr Ir)]. apply conn_sym; auto. apply (C q Hq Iq). }
        split; [auto|]. intros _.
        destruct (Plab q Hqn) as [[A [B Eq]]|[A Eq]]; [|rewrite Eq, (Gn q Hqn Iq) in Hl; congruence].
        destruct (Plab r Hrn) as [[_ [_ Er]]|[A' Er]]; [congruence|].
        exfalso. apply A'. split; [split; auto|].
        destruct (Nat.eq_dec r q) as [->|Nr]; auto. eapply conn_short; [|exact Nr]. apply conn_sym; auto. }
  destruct sm as [|e0 r0] eqn:Esm.
  - exists dn1, lab1, k. split; [reflexivity|]. apply Good; [lia | intros [e []]].
  - exists dn1, lab1, (k + 1)%Z. split; [reflexivity|]. apply Good; lia.
Qed.

Lemma tops_ok : forall m i s, (i + m = n)%nat ->
  (let '(dn, lab, k) := s in good i dn lab k) ->
  exists dn' lab' k', for_each (seq i m) top s = Ok (dn', lab', k') /\ good n dn' lab' k'.
Proof.
  induction m as [|m IH]; intros i [[dn lab] k] Hm G.
  - exists dn, lab, k. split; [reflexivity|]. replace n with i by lia. exact G.
  - cbn [seq for_each]. destruct (@top_ok i dn lab k ltac:(lia) G) as [d [l [k' [R G']]]].
    rewrite R. cbn [bind]. apply (IH (S i) (d, l, k')); [lia | exact G'].
Qed.

Lemma good_start : good 0 (repeat false n) (repeat (-1)%Z n) 1.
Proof.
  assert (F : forall q, ~ isd (repeat false n) q).
  { intros q H. unfold isd in H. apply nth_error_In, repeat_spec in H. discriminate. }
  constructor; try rewrite repeat_length; auto; try lia; try (intros; exfalso; eapply F; eassumption).
  intros q _ _. unfold lab_of. rewrite nth_repeat. reflexivity.
Qed.

(** Two vertices have one label iff they are connected. *)
Lemma groups_ok : exists dn lab k, for_each (seq 0 n) top (repeat false n, repeat (-1)%Z n, 1%Z) = Ok (dn, lab, k) /\
  length lab = n /\
  (forall q, (q < n)%nat -> (lab_of lab q <> -1 <-> has_short q)%Z) /\
  (forall q r, (q < n)%nat -> (r < n)%nat -> q <> r -> (lab_of lab q <> -1 /\ lab_of lab q = lab_of lab r <-> conn q r)%Z).
Proof.
  destruct (@tops_ok n 0 (repeat false n, repeat (-1)%Z n, 1%Z) ltac:(lia) good_start) as [dn [lab [k [R [Gd Gl Gk Gs Gc Gn G0 Gr Ge]]]]].
  exists dn, lab, k. split; [exact R|]. split; [auto|]. split; [intros q Hq; apply G0; auto|].
  intros q r Hq Hr N. split.
  - intros [H1 H2]. apply Ge; auto.
  - intro H. assert (Hs : lab_of lab q <> (-1)%Z) by (apply G0; auto; eapply conn_short; eauto).
    split; auto. apply Ge; auto.
Qed.
End Dfs.
