(** with_latest_from: linearizability.  The main event takes effect at the moment it
    reads the other values, provided its output reaches a living downstream. *)
From Verif Require Import Base Machine MachineProofs Concur MultiSpec MultiModel MultiLin MultiCount MultiProofs.

Lemma live_from_app : forall A (a b : hist A) en,
  exists en', live_from en (a ++ b) = live_from en a ++ live_from en' b /\
    (forall i e, is_term e = false -> endedb i (live_from en a) = false -> existsb (Nat.eqb i) en = false ->
       live_from en (a ++ (i, e) :: b) = live_from en a ++ (i, e) :: live_from en' b).
Proof.
  induction a as [|[j x] a IH]; intros b en.
  - exists en. split; auto. intros i e T _ N. cbn. now rewrite N, T.
  - cbn [app live_from]. destruct (existsb (Nat.eqb j) en) eqn:E.
    + apply IH.
    + destruct (IH b (if is_term x then j :: en else en)) as (en' & E1 & E2). exists en'. split.
      * cbn. now rewrite E1.
      * intros i e T EN NE. cbn in EN. apply orb_false_iff in EN as [EN1 EN2]. cbn. f_equal. apply E2; auto.
        destruct (is_term x); auto. cbn. rewrite NE, orb_false_r.
        destruct (Nat.eqb_spec i j) as [->|]; auto. rewrite Nat.eqb_refl in EN1. discriminate.
Qed.

Section WithLatest.
  Context {A B : Type} (n : nat) (f : A -> list A -> res B) (D : machine B) (L : lawful D) (d0 : mst D).
  Hypothesis total : forall v l, exists b, f v l = Ok b.
  Notation op := (with_latest_op n f).
  Notation out := (with_latest_out n f).
  Notation run := (run op).
  Notation pst := (pstep op D (fun _ => @nil (nat * ev A))).
  Notation dd := (dd D out d0).

  Definition fits (i : nat) (e : ev A) (p : ev B) : Prop :=
    match e with
    | Next _ => i = 0 /\ exists b, p = Next b
    | Err x => p = Err x
    | Done => i = 0 /\ p = Done
    end.
  Definition wphase (i : nat) (r : run) : Prop :=
    match r with
    | Idle _ => True
    | Run _ e st k l =>
        match k with
        | P0 | PPre _ => l = false
        | PLock p | PBody p => l = false /\ fits i e p
        | PCall _ t | PUnlock t => l = true /\ t = None
        | PCatch _ => False
        | PFin => l = true
        end
    end.
  Definition wflags (g : gs op D) (lh : hist A) (i : nat) (r : run) : Prop :=
    if i =? 0 then endedb i lh = false else
    match r with
    | Idle _ => owned op D g i = endedb i lh
    | Run _ e st k l =>
        match k with
        | P0 => owned op D g i = endedb i lh
        | PPre _ | PLock _ | PBody _ => owned op D g i = false /\ endedb i lh = false
        | PCall _ _ | PUnlock _ | PFin => owned op D g i = false /\ endedb i lh = is_term e
        | PCatch _ => False
        end
    end.
  (** Nothing that could produce output. *)
  Definition silent (h : hist A) : Prop := forall i e, In (i, e) h -> i <> 0 /\ forall x, e <> Err x.
  Definition waits (v : A) (p : ev B) (tr : list (alab A)) : Prop :=
    exists a b lb, tr = a ++ b /\ per 0 b = [] /\ live (lins tr) = live (lins a) ++ lb /\ silent lb /\
      out (live (lins a)) 0 (Next v) = [p].
  Definition pending (r : run) (tr : list (alab A)) : Prop :=
    match r with
    | Run _ e st (PLock p) _ | Run _ e st (PBody p) _ =>
        match e with Next v => waits v p tr | _ => True end
    | _ => True
    end.
  Definition wR (s : list (option A)) (h : hist A) : Prop := s = map (fun j => latest j h) (seq 1 n).

  Record JW (g : gs op D) (c : nat -> run) (tr : list (alab A)) : Prop := {
    w_phase : forall i, wphase i (c i);
    w_lock : (g_lock g = true /\ exists i, at_lock op (c i) = true /\ forall j, at_lock op (c j) = true -> j = i) \/
             (g_lock g = false /\ forall j, at_lock op (c j) = false);
    w_down : (exists i e st os t l, c i = Run op e st (PCall os t) l /\ mrun D (g_down g) os = dd tr) \/
             ((forall i, at_call op (c i) = false) /\ g_down g = dd tr);
    w_rest : mdisp D (dd tr) = false ->
             (forall i, wflags g (live (lins tr)) i (c i)) /\ wR (g_op g) (live (lins tr)) /\ pending (c 0) tr
  }.

  Lemma wflags_other : forall g g' lh lh' j r, wflags g lh j r -> owned op D g' j = owned op D g j ->
    endedb j lh' = endedb j lh -> wflags g' lh' j r.
  Proof.
    intros g g' lh lh' j r F E1 E2. unfold wflags in *. destruct (j =? 0); [congruence|].
    destruct r as [|e st k l]; cbn in *; [congruence|]. destruct k; cbn in *; auto; rewrite ?E1, ?E2; auto.
  Qed.
  Lemma wphase_upd : forall c i r', (forall j, wphase j (c j)) -> wphase i r' -> forall j, wphase j (upd_run op c i r' j).
  Proof. intros c i r' P P' j. destruct (Nat.eq_dec j i) as [->|NE]; [now rewrite upd_same | now rewrite upd_other]. Qed.

  Lemma JW_ext : forall g c c' tr, (forall j, c j = c' j) -> JW g c tr -> JW g c' tr.
  Proof.
    intros g c c' tr E [P LK DN RS]. constructor.
    - intro i. rewrite <- E. auto.
    - destruct LK as [[H (i & H1 & H2)]|[H H1]]; [left | right]; split; auto.
      + exists i. rewrite <- E. split; auto. intro j. rewrite <- E. auto.
      + intro j. rewrite <- E. auto.
    - destruct DN as [(i & e & st & os & t & l & H1 & H2)|[H1 H2]]; [left | right].
      + exists i, e, st, os, t, l. now rewrite <- E.
      + split; auto. intro j. rewrite <- E. auto.
    - intro M. destruct (RS M) as (F & RR & PE). rewrite <- E. split; auto. intro i. rewrite <- E. auto.
  Qed.

  (** Appending a label that is not of source 0 keeps what main is waiting for. *)
  Lemma waits_app : forall v p tr x b', waits v p tr -> at_src 0 x = false ->
    live (lins (tr ++ [x])) = live (lins tr) ++ b' -> silent b' -> waits v p (tr ++ [x]).
  Proof.
    intros v p tr x b' (a & b & lb & E & E1 & E2 & E3 & E4) S1 S2 S3.
    exists a, (b ++ [x]), (lb ++ b'). subst tr. rewrite app_assoc. repeat split; auto.
    - rewrite per_app, E1. cbn. now rewrite S1.
    - rewrite S2, E2, app_assoc. reflexivity.
    - apply in_app_or in H. destruct H as [H|H]; [now destruct (E3 i e H) | now destruct (S3 i e H)].
    - apply in_app_or in H. destruct H as [H|H]; [now destruct (E3 i e H) | now destruct (S3 i e H)].
  Qed.
  Lemma pending_app : forall r tr x b', pending r tr -> at_src 0 x = false ->
    live (lins (tr ++ [x])) = live (lins tr) ++ b' -> silent b' -> pending r (tr ++ [x]).
  Proof.
    intros r tr x b' P S1 S2 S3. destruct r as [|e st k l]; auto. destruct k; auto; destruct e; auto; cbn in *;
      eapply waits_app; eauto.
  Qed.
  Lemma silent_nil : silent [].
  Proof. intros i e []. Qed.

  Lemma outs_silent : forall lb past, silent lb -> outs_from out past lb = [].
  Proof.
    induction lb as [|[i e] lb IH]; intros past S; auto. cbn. rewrite IH by (intros j x H; apply S; now right).
    destruct (S i e (or_introl eq_refl)) as [N1 N2]. apply Nat.eqb_neq in N1. unfold with_latest_out.
    rewrite N1. destruct e; auto. now destruct (N2 e).
  Qed.

  (** Insertion of main's event at the moment of its read. *)
  Lemma insert : forall v p a b lb,
    live (lins (a ++ b)) = live (lins a) ++ lb -> silent lb -> endedb 0 (live (lins a)) = false ->
    out (live (lins a)) 0 (Next v) = [p] ->
    live (lins (a ++ Lin 0 (Next v) :: b)) = live (lins a) ++ (0, Next v) :: lb /\
    dd (a ++ Lin 0 (Next v) :: b) = mstep D (dd (a ++ b)) p.
  Proof.
    intros v p a b lb E S EN O. rewrite !lins_app in *. cbn [lins flat_map app]. fold (lins b).
    destruct (live_from_app A (lins a) (lins b) []) as (en' & E1 & E2).
    assert (LB : lb = live_from en' (lins b)).
    { unfold live in E. rewrite E1 in E. now apply app_inv_head in E. }
    specialize (E2 0 (Next v) eq_refl EN eq_refl). fold (live (lins a ++ (0, Next v) :: lins b)) in E2.
    fold (live (lins a)) in E2. rewrite <- LB in E2. split; [exact E2|].
    unfold MultiCount.dd, outs. rewrite !lins_app. cbn [lins flat_map app]. fold (lins b). rewrite E2, E.
    rewrite !outs_from_app. cbn [outs_from app]. rewrite O, !(outs_silent lb) by auto.
    rewrite !app_nil_r, mrun_app. reflexivity.
  Qed.

  Lemma pre_cases : forall m s i e,
    (exists s', mo_pre op m s i e = (s', PRet)) \/ (exists p, mo_pre op m s i e = (s, PGo p) /\ fits i e p).
  Proof.
    intros m s i e. cbn. destruct (Nat.eqb_spec i 0) as [->|NE].
    - destruct e as [v|x|].
      + destruct (all_some s) as [l|]; [|left; eauto]. destruct (total v l) as [b ->]. right. exists (Next b). cbn. eauto.
      + right. exists (Err x). cbn. auto.
      + right. exists Done. cbn. auto.
    - destruct e as [v|x|]; [left; eauto | right; exists (Err x); cbn; auto | left; eauto].
  Qed.

  Lemma w_out : forall s h v, wR s h ->
    match mo_pre op 0 s 0 (Next v) with
    | (_, PRet) => out h 0 (Next v) = []
    | (_, PGo p) => out h 0 (Next v) = [p]
    | _ => True
    end.
  Proof.
    intros s h v R. unfold wR in R. cbn. rewrite all_same, R.
    destruct (all_of (map (fun j => latest j h) (seq 1 n))) as [l|]; cbn; auto.
    destruct (total v l) as [b ->]. reflexivity.
  Qed.
  Lemma wR_next : forall s h i v, wR s h -> i <> 0 -> wR (upd (i - 1) (fun _ => Some v) s) (h ++ [(i, Next v)]).
  Proof.
    intros s h i v R NE. unfold wR in *. rewrite R, upd_map. apply map_ext_in. intros j _. rewrite latest_snoc.
    replace (1 + (i - 1)) with i by lia. reflexivity.
  Qed.
  Lemma latest_same : forall j i e (h : hist A), (j <> i \/ is_term e = true) -> latest j (h ++ [(i, e)]) = latest j h.
  Proof.
    intros j i e h [NE|T]; unfold latest; rewrite values_app; cbn.
    - assert (E : (i =? j) = false) by (apply Nat.eqb_neq; auto). rewrite E. now rewrite app_nil_r.
    - destruct (i =? j); destruct e; try discriminate; now rewrite app_nil_r.
  Qed.
  Lemma wR_same : forall s h i e, wR s h -> (i = 0 \/ is_term e = true) -> wR s (h ++ [(i, e)]).
  Proof.
    intros s h i e R H. unfold wR in *. rewrite R. apply map_ext_in. intros j I. apply in_seq in I. symmetry. apply latest_same.
    destruct H as [->|T]; [left; lia | now right].
  Qed.

  Lemma w_lin : forall g' c tr i e st k k', c i = Run op e st k false ->
    JW g' (upd_run op c i (Run op e st k' true)) (tr ++ [Lin i e]) ->
    exists c' tr' l', lmove op c c' tr tr' /\ c' i = Run op e st k l' /\ JW g' (upd_run op c' i (Run op e st k' l')) tr'.
  Proof.
    intros g' c tr i e st k k' C J. exists (upd_run op c i (Run op e st k true)), (tr ++ [Lin i e]), true.
    split; [now apply lmove_lin|]. split; [apply upd_same|]. eapply JW_ext; [|exact J].
    intro j. symmetry. apply upd_twice.
  Qed.
  Lemma w_no : forall g' c tr i e st k k' l, c i = Run op e st k l ->
    JW g' (upd_run op c i (Run op e st k' l)) tr ->
    exists c' tr' l', lmove op c c' tr tr' /\ c' i = Run op e st k l' /\ JW g' (upd_run op c' i (Run op e st k' l')) tr'.
  Proof. intros. exists c, tr, l. split; [apply lmove_refl|]. auto. Qed.

  (** A step of source i without a new label and without touching values. *)
  Lemma w_quiet : forall (g g' : gs op D) c i r' tr,
    ((forall i, wflags g (live (lins tr)) i (c i)) /\ wR (g_op g) (live (lins tr)) /\ pending (c 0) tr) ->
    g_op g' = g_op g -> g_own g' = g_own g -> wflags g (live (lins tr)) i r' -> (i = 0 -> pending r' tr) ->
    (forall j, wflags g' (live (lins tr)) j (upd_run op c i r' j)) /\ wR (g_op g') (live (lins tr)) /\ pending (upd_run op c i r' 0) tr.
  Proof.
    intros g g' c i r' tr (F & RR & PE) E1 E2 F' P'. rewrite E1. split; [|split]; auto.
    - intro j. assert (O : forall k, owned op D g' k = owned op D g k) by (intro k; unfold owned; now rewrite E2).
      destruct (Nat.eq_dec j i) as [->|NE].
      + rewrite upd_same. eapply wflags_other; eauto.
      + rewrite upd_other by auto. eapply wflags_other; eauto.
    - destruct (Nat.eq_dec i 0) as [->|NE]; [rewrite upd_same; auto | rewrite upd_other; auto].
  Qed.

  Lemma JW_inv : forall g c tr i e st, JW g c tr -> c i = Idle op ->
    JW g (upd_run op c i (Run op e st P0 false)) (tr ++ [Vis (Inv i e)]).
  Proof.
    intros g c tr i e st [P LK DN RS] C. constructor.
    - apply wphase_upd; auto. reflexivity.
    - eapply lock_upd; eauto. left. rewrite C. auto.
    - eapply down_upd; eauto; try (rewrite C; reflexivity). apply dd_vis.
    - rewrite dd_vis, lins_vis. intro M. destruct (RS M) as (F & RR & PE). split; [|split]; auto.
      + intro j. destruct (Nat.eq_dec j i) as [->|NE]; [rewrite upd_same | rewrite upd_other; auto].
        specialize (F i). rewrite C in F. unfold wflags in *. destruct (i =? 0); auto.
      + destruct (Nat.eq_dec i 0) as [->|NE]; [rewrite upd_same; exact I|]. rewrite upd_other by auto.
        eapply pending_app; eauto; [|rewrite lins_vis; symmetry; apply app_nil_r | apply silent_nil].
        cbn. apply Nat.eqb_neq. auto.
  Qed.

  Lemma w_flags_step : forall g g' c i r' lh lh' e,
    (forall j, wflags g lh j (c j)) -> g_own g' = g_own g -> lh' = lh ++ [(i, e)] -> wflags g' lh' i r' ->
    forall j, wflags g' lh' j (upd_run op c i r' j).
  Proof.
    intros g g' c i r' lh lh' e F E1 E2 F' j. destruct (Nat.eq_dec j i) as [->|NE]; [now rewrite upd_same|].
    rewrite upd_other by auto. eapply wflags_other; eauto.
    - unfold owned. now rewrite E1.
    - rewrite E2. now apply endedb_other.
  Qed.

  (** endedb of the acting source when alive. *)
  Lemma w_notended : forall g lh i e st k l, wflags g lh i (Run op e st k l) ->
    (match k with PPre _ | PLock _ | PBody _ => True | _ => False end) -> endedb i lh = false.
  Proof. intros g lh i e st k l F K. unfold wflags in F. destruct (i =? 0); auto. destruct k; try destruct K; apply F. Qed.

  Lemma wpre_ret : forall g c tr i e st m s', JW g c tr -> c i = Run op e st (PPre m) false ->
    mo_pre op m (g_op g) i e = (s', PRet) ->
    JW (GS (g_lock g) s' (g_own g) (g_down g)) (upd_run op c i (Run op e st PFin true)) (tr ++ [Lin i e]).
  Proof.
    intros g c tr i e st m s' [P LK DN RS] C Q.
    assert (X : mdisp D (dd tr) = false -> endedb i (live (lins tr)) = false /\ out (live (lins tr)) i e = [] /\
                  wR s' (live (lins tr) ++ [(i, e)]) /\ (i <> 0 -> forall x, e <> Err x) /\ (i = 0 -> is_term e = false)).
    { intro M. destruct (RS M) as (F & RR & PE). pose proof (F i) as Fi. rewrite C in Fi.
      pose proof (w_notended _ _ _ _ _ _ _ Fi I) as NE. split; auto. destruct (Nat.eqb_spec i 0) as [->|NZ].
      - destruct e as [v|x|]; try discriminate.
        pose proof (w_out _ _ v RR) as H. change (mo_pre op 0 (g_op g) 0 (Next v)) with (mo_pre op m (g_op g) 0 (Next v)) in H.
        rewrite Q in H. repeat split; auto; try congruence; try discriminate.
        apply wR_same; auto. cbn in Q. destruct (all_some (g_op g)); [|now injection Q as <-].
        destruct (f v l); discriminate.
      - unfold with_latest_out. cbn in Q. rewrite (proj2 (Nat.eqb_neq i 0) NZ) in *.
        destruct e as [v|x|]; try discriminate; injection Q as <-; repeat split; auto; try congruence; try discriminate.
        + now apply wR_next.
        + apply wR_same; auto. }
    assert (DD : dd (tr ++ [Lin i e]) = dd tr).
    { destruct (mdisp D (dd tr)) eqn:M; [now apply dead_lin|]. destruct (X eq_refl) as (E1 & E2 & _).
      rewrite dd_lin, E1, E2. reflexivity. }
    constructor.
    - apply wphase_upd; auto. reflexivity.
    - eapply lock_upd; eauto. left. rewrite C. auto.
    - eapply down_upd; eauto; rewrite C; reflexivity.
    - rewrite DD. intro M. destruct (X M) as (E1 & E2 & E3 & E4 & E5). destruct (RS M) as (F & RR & PE).
      pose proof (F i) as Fi. rewrite C in Fi. split; [|split].
      + eapply w_flags_step; eauto; [rewrite live_lin, E1; reflexivity|].
        rewrite live_lin, E1. unfold wflags in *. destruct (Nat.eqb_spec i 0) as [->|NZ].
        * rewrite endedb_this; auto.
        * split; [apply Fi | now apply endedb_this].
      + rewrite live_lin, E1. exact E3.
      + destruct (Nat.eq_dec i 0) as [->|NZ]; [rewrite upd_same; exact I|]. rewrite upd_other by auto.
        eapply pending_app; eauto; [cbn; now apply Nat.eqb_neq | rewrite live_lin, E1; reflexivity|].
        intros j y [H|[]]. injection H as <- <-. auto.
  Qed.

  Lemma wpre_go : forall g c tr i e st m p, JW g c tr -> c i = Run op e st (PPre m) false ->
    mo_pre op m (g_op g) i e = (g_op g, PGo p) -> fits i e p ->
    JW (GS (g_lock g) (g_op g) (g_own g) (g_down g)) (upd_run op c i (Run op e st (PLock p) false)) tr.
  Proof.
    intros g c tr i e st m p [P LK DN RS] C Q FT. constructor.
    - apply wphase_upd; auto. cbn. auto.
    - eapply lock_upd; eauto. left. rewrite C. auto.
    - eapply down_upd; eauto; rewrite C; reflexivity.
    - intro M. eapply w_quiet; eauto; destruct (RS M) as (F & RR & PE); pose proof (F i) as Fi; rewrite C in Fi.
      + exact Fi.
      + intros ->. cbn. destruct e as [v|x|]; auto. exists tr, [], []. rewrite !app_nil_r. repeat split; auto.
        * pose proof (w_out _ _ v RR) as H. change (mo_pre op 0 (g_op g) 0 (Next v)) with (mo_pre op m (g_op g) 0 (Next v)) in H.
          now rewrite Q in H.
  Qed.

  Lemma wbody : forall g c tr i e st p, JW g c tr -> c i = Run op e st (PBody p) false -> fits i e p ->
    exists c' tr' l', lmove op c c' tr tr' /\ c' i = Run op e st (PBody p) l' /\
      JW (GS (g_lock g) (g_op g) (g_own g) (g_down g)) (upd_run op c' i (Run op e st (PCall [p] None) l')) tr'.
  Proof.
    intros g c tr i e st p [P LK DN RS] C FT.
    destruct (holder op D g c i LK ltac:(rewrite C; reflexivity)) as [HL HC].
    assert (GD : g_down g = dd tr).
    { destruct DN as [(j & e1 & st1 & os1 & t1 & l1 & K1 & K2)|[_ K]]; auto. exfalso.
      destruct (Nat.eq_dec j i) as [->|NE]; [rewrite C in K1; discriminate|].
      specialize (HC j NE). rewrite K1 in HC. discriminate. }
    assert (GEN : forall tr', (mdisp D (dd tr) = true -> dd tr' = dd tr) ->
      (mdisp D (dd tr) = false -> dd tr' = mstep D (dd tr) p) ->
      (mdisp D (dd tr) = false -> mdisp D (dd tr') = false ->
       (forall j, wflags g (live (lins tr')) j (upd_run op c i (Run op e st (PCall [p] None) true) j)) /\
       wR (g_op g) (live (lins tr')) /\ i = 0) ->
      JW (GS (g_lock g) (g_op g) (g_own g) (g_down g)) (upd_run op c i (Run op e st (PCall [p] None) true)) tr').
    { intros tr' H1 H2 H3. constructor.
      - apply wphase_upd; auto. cbn. auto.
      - eapply lock_upd; eauto. left. rewrite C. auto.
      - left. exists i, e, st, [p], None, true. rewrite upd_same. split; auto. cbn. rewrite GD.
        destruct (mdisp D (dd tr)) eqn:M; [rewrite H1 by auto; now apply (law_dead D L) | rewrite H2; auto].
      - intro M'. destruct (mdisp D (dd tr)) eqn:M; [rewrite H1 in M' by auto; congruence|].
        destruct (H3 eq_refl M') as (Q1 & Q2 & ->). split; [|split]; auto. rewrite upd_same. exact I. }
    assert (LAST : (mdisp D (dd tr) = true \/ is_term e = true) ->
      JW (GS (g_lock g) (g_op g) (g_own g) (g_down g)) (upd_run op c i (Run op e st (PCall [p] None) true)) (tr ++ [Lin i e])).
    { intros Z. assert (EE : mdisp D (dd tr) = false -> dd (tr ++ [Lin i e]) = mstep D (dd tr) p /\ is_term p = true).
      { intro M. destruct Z as [Z|Z]; [congruence|]. destruct (RS M) as (F & _). specialize (F i). rewrite C in F.
        rewrite dd_lin, (w_notended _ _ _ _ _ _ _ F I). unfold with_latest_out.
        destruct e as [v|x|]; try discriminate; cbn in FT.
        - subst p. split; reflexivity.
        - destruct FT as [-> ->]. split; reflexivity. }
      apply GEN.
      - intro. now apply dead_lin.
      - intro M. now apply EE.
      - intros M M'. destruct (EE M) as [E1 E2]. rewrite E1, (law_term D L) in M'; auto. discriminate. }
    destruct (mdisp D (dd tr)) eqn:M.
    { eapply w_lin; eauto. }
    destruct (is_term e) eqn:T.
    { eapply w_lin; eauto. }
    destruct e as [v|x|]; try discriminate. cbn in FT. destruct FT as [-> (b0 & ->)].
    destruct (RS eq_refl) as (F & RR & PE). rewrite C in PE. cbn in PE. destruct PE as (a & b & lb & E1 & E2 & E3 & E4 & E5).
    pose proof (F 0) as F0. rewrite C in F0. pose proof (w_notended _ _ _ _ _ _ _ F0 I) as EN.
    assert (ENa : endedb 0 (live (lins a)) = false).
    { rewrite E3, endedb_app in EN. now apply orb_false_iff in EN as [EN _]. }
    subst tr. destruct (insert v (Next b0) a b lb E3 E4 ENa E5) as [I1 I2].
    exists (upd_run op c 0 (Run op (Next v) st (@PBody A B op (Next b0)) true)), (a ++ Lin 0 (Next v) :: b), true.
    split; [|split; [apply upd_same|]].
    - split.
      + rewrite !erase_app. reflexivity.
      + intro j. destruct (Nat.eq_dec j 0) as [->|NZ].
        * right. exists (Next v), st, (@PBody A B op (Next b0)). rewrite upd_same. repeat split; auto.
          rewrite !per_app, E2, app_nil_r. cbn [per filter at_src Nat.eqb]. fold (per 0 b). rewrite E2. reflexivity.
        * left. rewrite upd_other by auto. split; auto. rewrite !per_app. cbn [per filter at_src].
          destruct j; [congruence|]. reflexivity.
    - eapply JW_ext; [intro j; symmetry; apply upd_twice|]. apply GEN.
      + congruence.
      + auto.
      + intros _ M'. split; [|split]; auto.
        * intro j. rewrite I1. destruct (Nat.eq_dec j 0) as [->|NZ].
          -- rewrite upd_same. unfold wflags. cbn [Nat.eqb]. rewrite E3, endedb_app in EN. apply orb_false_iff in EN as [_ EN].
             rewrite endedb_app, ENa. cbn. exact EN.
          -- rewrite upd_other by auto. eapply wflags_other; eauto. rewrite E3, !endedb_app. cbn.
             destruct j; [congruence|]. reflexivity.
        * rewrite I1. unfold wR in *. rewrite RR, E3. apply map_ext_in. intros j J. apply in_seq in J. unfold latest. rewrite !values_app.
          cbn. destruct j; [lia|]. reflexivity.
  Qed.

  Lemma JW_step : forall g c tr i e st k l g' k' m, JW g c tr -> c i = Run op e st k l ->
    pst g i e st k = Some (g', Some k', m) ->
    exists c' tr' l', lmove op c c' tr tr' /\ c' i = Run op e st k l' /\ JW g' (upd_run op c' i (Run op e st k' l')) tr'.
  Proof.
    intros g c tr i e st k l g' k' m J C S. pose proof (w_phase _ _ _ J i) as PH. rewrite C in PH.
    destruct k as [|m0|p|p|os t|t|x|]; cbn [wphase] in PH; unfold pstep in S; cbv beta iota in S.
    - subst l. destruct (mo_ready op (g_op g) i) eqn:RD; cbn [negb] in S; [|discriminate]. cbn [mo_gate_locks with_latest_op andb] in S.
      destruct (gate op D g i st) eqn:G; [discriminate|]. injection S as <- <- _.
      eapply w_no; eauto. destruct J as [P LK DN RS]. constructor.
      + apply wphase_upd; auto. reflexivity.
      + eapply lock_upd; eauto. left. rewrite C. auto.
      + eapply down_upd; eauto; rewrite C; reflexivity.
      + intro M. eapply w_quiet; eauto; [|intros _; exact I]. destruct (RS M) as (F & RR & PE).
        specialize (F i). rewrite C in F. unfold wflags in *. destruct (i =? 0) eqn:Z; auto. unfold gate in G.
        cbn [mo_own with_latest_op] in G. rewrite Z in G. cbn [negb andb] in G.
        apply orb_false_iff in G as [G _]. apply orb_false_iff in G as [G _]. split; congruence.
    - subst l. destruct (pre_cases m0 (g_op g) i e) as [(s2 & E)|(p & E & FT)]; rewrite E in S; injection S as <- <- _.
      + eapply w_lin; eauto. eapply wpre_ret; eauto.
      + eapply w_no; eauto. eapply wpre_go; eauto.
    - destruct PH as (-> & FT). destruct (g_lock g) eqn:LQ; [discriminate|]. injection S as <- <- _.
      eapply w_no; eauto. destruct J as [P LK DN RS]. constructor.
      + apply wphase_upd; auto. cbn. auto.
      + eapply lock_upd; eauto.
      + eapply down_upd; eauto; rewrite C; reflexivity.
      + intro M. destruct (RS M) as (F & RR & PE). eapply w_quiet; eauto.
        * specialize (F i). rewrite C in F. exact F.
        * intros ->. rewrite C in PE. exact PE.
    - destruct PH as (-> & FT). injection S as <- <- _. eapply wbody; eauto.
    - destruct PH as [-> ->]. injection S as <- <- _. eapply w_no; eauto. destruct J as [P LK DN RS].
      destruct (holder op D g c i LK ltac:(rewrite C; reflexivity)) as [HL HC].
      assert (GD : mrun D (g_down g) os = dd tr).
      { destruct DN as [(j & e1 & st1 & os1 & t1 & l1 & K1 & K2)|[K _]].
        - destruct (Nat.eq_dec j i) as [->|NE]; [rewrite C in K1; injection K1 as <- <- <- <- <-; auto|].
          specialize (HC j NE). rewrite K1 in HC. discriminate.
        - specialize (K i). rewrite C in K. discriminate. }
      constructor.
      + apply wphase_upd; auto. cbn. auto.
      + eapply lock_upd; eauto. left. rewrite C. auto.
      + right. cbn. split; auto. intro j. destruct (Nat.eq_dec j i) as [->|NE]; [now rewrite upd_same | rewrite upd_other; auto].
      + intro M. destruct (RS M) as (F & RR & PE). eapply w_quiet; eauto; [|intros _; exact I].
        specialize (F i). rewrite C in F. exact F.
    - destruct PH as [-> ->]. injection S as <- <- _. eapply w_no; eauto. destruct J as [P LK DN RS]. constructor.
      + apply wphase_upd; auto. reflexivity.
      + eapply lock_upd; eauto. right. right. rewrite C. auto.
      + eapply down_upd; eauto; rewrite C; reflexivity.
      + intro M. destruct (RS M) as (F & RR & PE). eapply w_quiet; eauto; [|intros _; exact I].
        specialize (F i). rewrite C in F. exact F.
    - destruct PH.
    - discriminate.
  Qed.

  Lemma JW_ret : forall g c tr i e st k l g' m, JW g c tr -> c i = Run op e st k l ->
    pst g i e st k = Some (g', None, m) ->
    exists c' tr', lmove op c c' tr tr' /\ c' i = Run op e st k true /\ JW g' (upd_run op c' i (Idle op)) (tr' ++ [Vis (Ret i e)]).
  Proof.
    intros g c tr i e st k l g' m J C S. pose proof (w_phase _ _ _ J i) as PH. rewrite C in PH.
    destruct k as [|m0|p|p|os t|t|x|]; cbn [wphase] in PH; unfold pstep in S; cbv beta iota in S.
    - subst l. destruct (mo_ready op (g_op g) i) eqn:RD; cbn [negb] in S; [|discriminate]. cbn [mo_gate_locks with_latest_op andb] in S.
      destruct (gate op D g i st) eqn:G; [|discriminate]. injection S as <- _.
      exists (upd_run op c i (Run op e st P0 true)), (tr ++ [Lin i e]). split; [now apply lmove_lin|]. split; [apply upd_same|].
      eapply JW_ext; [intro j; symmetry; apply upd_twice|]. destruct J as [P LK DN RS].
      assert (DD : dd (tr ++ [Lin i e]) = dd tr /\ (mdisp D (dd tr) = false -> i <> 0 /\ endedb i (live (lins tr)) = true)).
      { destruct (mdisp D (dd tr)) eqn:M; [split; [now apply dead_lin | discriminate]|].
        destruct (RS eq_refl) as (F & RR & PE). specialize (F i). rewrite C in F. unfold wflags in F.
        unfold gate in G. cbn [mo_own mo_gate with_latest_op] in G. rewrite orb_false_r in G.
        assert (GA : mdisp D (g_down g) && negb st = false).
        { destruct (mdisp D (g_down g)) eqn:MD; auto. apply (call_dead op D out L d0 g c tr DN) in MD. congruence. }
        rewrite GA, orb_false_r in G. apply andb_prop in G as [G1 G2]. destruct (i =? 0) eqn:Z; [discriminate|].
        apply Nat.eqb_neq in Z. rewrite dd_lin, <- F, G2. auto. }
      destruct DD as [DD EN]. constructor.
      + apply wphase_upd; auto. exact I.
      + eapply lock_upd; eauto. left. rewrite C. auto.
      + eapply down_upd; eauto; try (rewrite C; reflexivity). rewrite dd_vis. auto.
      + rewrite dd_vis, lins_vis, DD, live_lin. intro M. destruct (EN M) as [NZ EN']. rewrite EN', app_nil_r.
        destruct (RS M) as (F & RR & PE). split; [|split]; auto.
        * intro j. destruct (Nat.eq_dec j i) as [->|NE]; [rewrite upd_same | rewrite upd_other; auto].
          specialize (F i). rewrite C in F. unfold wflags in *. destruct (i =? 0); auto.
        * rewrite upd_other by auto. apply Nat.eqb_neq in NZ.
          eapply pending_app with (b' := []); [eapply pending_app with (b' := []); eauto| | |apply silent_nil].
          -- rewrite live_lin, EN'. reflexivity.
          -- apply silent_nil.
          -- exact NZ.
          -- rewrite lins_vis. symmetry. apply app_nil_r.
    - destruct (pre_cases m0 (g_op g) i e) as [(s2 & E)|(p & E & FT)]; rewrite E in S; discriminate.
    - destruct (g_lock g); discriminate.
    - discriminate.
    - discriminate.
    - discriminate.
    - destruct PH.
    - subst l. injection S as <- _. exists c, tr. split; [apply lmove_refl|]. split; auto.
      destruct J as [P LK DN RS]. constructor.
      + apply wphase_upd; auto. exact I.
      + eapply lock_upd; eauto. left. rewrite C. auto.
      + eapply down_upd; eauto; try (rewrite C; reflexivity). apply dd_vis.
      + rewrite dd_vis, lins_vis. intro M. destruct (RS M) as (F & RR & PE). cbn [g_op]. split; [|split]; auto.
        * intro j. destruct (Nat.eq_dec j i) as [->|NE].
          -- rewrite upd_same. specialize (F i). rewrite C in F. unfold wflags in *. destruct (i =? 0) eqn:Z; auto.
             destruct F as [F1 F2]. rewrite F2.
             destruct (is_term e); auto. unfold owned. cbn. now rewrite Nat.eqb_refl.
          -- rewrite upd_other by auto. eapply wflags_other; eauto. destruct (is_term e); auto. unfold owned. cbn.
             apply Nat.eqb_neq in NE. now rewrite NE.
        * destruct (Nat.eq_dec i 0) as [->|NZ]; [rewrite upd_same; exact I|]. rewrite upd_other by auto.
          eapply pending_app with (b' := []); eauto; [cbn; now apply Nat.eqb_neq | rewrite lins_vis; symmetry; apply app_nil_r | apply silent_nil].
  Qed.

  Lemma JW_init : JW (g_init op D d0) (fun _ => Idle op) [].
  Proof.
    constructor; cbn; auto. intros _. split; [|split]; auto.
    - intro i. unfold wflags. destruct (i =? 0); reflexivity.
    - unfold wR. cbn. change (@latest A) with (@latest A). induction n as [|k IH]; auto.
      rewrite seq_S, map_app, <- IH. clear. induction k; cbn in *; congruence.
  Qed.

  Theorem with_latest_linearizable : forall progs tr c,
    gexec (istep op D (fun _ => [])) (g_init op D d0, threads op progs) tr c ->
    exists h, linearized (map (map fst) progs) tr h /\
      (g_lock (fst c) = false -> g_down (fst c) = mrun D d0 (outs out h)) /\
      (gfinished c -> g_lock (fst c) = false).
  Proof.
    intros progs tr c X.
    destruct (lin_generic op D progs JW JW_inv JW_step JW_ret d0 JW_init tr c X) as (cu & tr' & E & J & PR & FN).
    exists (lins tr'). destruct J as [P LK DN RS]. split; [|split].
    - exists tr'. repeat split; auto. intro i. change (@nil (ev A)) with (map (@fst (ev A) bool) []). rewrite map_nth. auto.
    - intro LF. destruct LK as [[H _]|[_ LK]]; [congruence|].
      destruct DN as [(i & e & st & os & t & l & K1 & _)|[_ DN]]; [|exact DN].
      specialize (LK i). rewrite K1 in LK. discriminate.
    - intro F. destruct LK as [[H (i & K & _)]|[H _]]; auto. destruct (FN F i) as [FI _]. rewrite FI in K. discriminate.
  Qed.
End WithLatest.
