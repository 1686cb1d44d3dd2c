(** take_until: linearizability.  The event that stops the operator takes effect when it
    is delivered, or as soon as the other side has seen the stop. *)
From Verif Require Import Base Machine MachineProofs Concur MultiSpec MultiModel MultiLin MultiCount.

Section TakeUntil.
  Context {A : Type} (D : machine A) (L : lawful D) (d0 : mst D).
  Notation op := (take_until_op A).
  Notation out := (@take_until_out A).
  Notation run := (run op).
  Notation pst := (pstep op D (fun _ => @nil (nat * ev A))).
  Notation dd := (dd D out d0).

  Definition tpost (i : nat) (e : ev A) : ev A :=
    if i =? 0 then e else match e with Next _ => Done | _ => e end.
  Definition tphase (i : nat) (r : run) : Prop :=
    match r with
    | Idle _ => True
    | Run _ e st k l =>
        match k with
        | P0 => l = false
        | PPre _ => l = false /\ i <= 1
        | PLock p | PBody p => p = tpost i e /\ (is_term p = false -> l = false) /\ i <= 1
        | PCall os t => l = true /\ t = None /\ os = [tpost i e] /\ i <= 1
        | PUnlock t => l = true /\ t = None
        | PCatch _ => False
        | PFin => l = true
        end
    end.
  Definition busy (r : run) : bool :=
    match r with Run _ _ _ (PLock _) _ | Run _ _ _ (PBody _) _ | Run _ _ _ (PCall _ _) _ => true | _ => false end.
  (** A terminal event is on its way. *)
  Definition tl (r : run) : bool :=
    match r with
    | Run _ _ _ (PLock p) _ | Run _ _ _ (PBody p) _ => is_term p
    | Run _ _ _ (PCall os _) _ => existsb is_term os
    | _ => false
    end.
  Definition only0 (h : hist A) : Prop := forall j e, In (j, e) h -> j = 0 /\ is_term e = false.
  Definition drel (g : gs op D) (c : nat -> run) (tr : list (alab A)) : Prop :=
    (exists i e st os t l, c i = Run op e st (PCall os t) l /\ mrun D (g_down g) os = dd tr) \/
    ((forall i, at_call op (c i) = false) /\ g_down g = dd tr).

  Inductive mode (g : gs op D) (c : nat -> run) (tr : list (alab A)) : Prop :=
  | Dead : mdisp D (g_down g) = true -> g_down g = dd tr -> mode g c tr
  | M2 : mdisp D (g_down g) = false -> g_op g = false -> only0 (lins tr) -> (forall i, tl (c i) = false) ->
         drel g c tr -> mode g c tr
  | M3 : mdisp D (g_down g) = false -> g_op g = true -> only0 (lins tr) ->
         forall w e st (p : mo_P op) (k : pc op), c w = Run op e st k false -> k = PLock p \/ k = PBody p -> is_term p = true ->
         (forall j, tl (c j) = true -> j = w) -> drel g c tr -> mode g c tr
  | M4 : mdisp D (g_down g) = false -> g_op g = true ->
         forall w e st (p : mo_P op) (k : pc op), c w = Run op e st k true -> is_term p = true -> dd tr = mstep D (g_down g) p ->
         ((k = PLock p \/ k = PBody p) /\ forall j, j <> w -> busy (c j) = false) \/ k = PCall [p] None ->
         mode g c tr.

  Record JT (g : gs op D) (c : nat -> run) (tr : list (alab A)) : Prop := {
    t_phase : forall i, tphase i (c i);
    t_lock : (g_lock g = true /\ exists i, at_lock op (c i) = true /\ forall j, at_lock op (c j) = true -> j = i) \/
             (g_lock g = false /\ forall j, at_lock op (c j) = false);
    t_mode : mode g c tr
  }.

  Lemma tphase_upd : forall c i r', (forall j, tphase j (c j)) -> tphase i r' -> forall j, tphase j (upd_run op c i r' j).
  Proof. intros c i r' P P' j. destruct (Nat.eq_dec j i) as [->|NE]; [now rewrite upd_same | now rewrite upd_other]. Qed.

  Lemma only0_live : forall h, only0 h -> live h = h.
  Proof.
    unfold live. induction h as [|[j e] h IH]; intro O; auto.
    destruct (O j e (or_introl eq_refl)) as [_ T]. cbn. rewrite T, IH; auto. intros ? ? H. apply O. now right.
  Qed.
  Lemma only0_notif : forall h, only0 h -> existsb (fun x => fst x =? 1) h = false.
  Proof.
    induction h as [|[j e] h IH]; intro O; auto. destruct (O j e (or_introl eq_refl)) as [-> _]. cbn.
    apply IH. intros ? ? H. apply O. now right.
  Qed.
  Lemma only0_ended : forall h i, only0 h -> endedb i h = false.
  Proof.
    induction h as [|[j e] h IH]; intros i O; auto. destruct (O j e (or_introl eq_refl)) as [_ T]. cbn. rewrite T, andb_false_r.
    apply IH. intros ? ? H. apply O. now right.
  Qed.
  Lemma dd_only0 : forall tr i e, only0 (lins tr) -> i <= 1 -> dd (tr ++ [Lin i e]) = mstep D (dd tr) (tpost i e).
  Proof.
    intros tr i e O LE. rewrite dd_lin, only0_live, only0_ended by auto. unfold take_until_out.
    rewrite only0_notif by auto. unfold tpost. destruct (i =? 0); auto. destruct e; auto.
  Qed.
  Lemma only0_lin : forall tr e, only0 (lins tr) -> is_term e = false -> only0 (lins (tr ++ [Lin 0 e])).
  Proof.
    intros tr e O T. rewrite lins_app. intros j x H. apply in_app_or in H. destruct H as [H|[H|[]]]; auto.
    injection H as <- <-. auto.
  Qed.

  Lemma tl_busy : forall r, busy r = false -> tl r = false.
  Proof. intros [|e st k l] B; auto. destruct k; auto; discriminate. Qed.
  Lemma call_busy : forall r, busy r = false -> at_call op r = false.
  Proof. intros [|e st k l] B; auto. destruct k; auto; discriminate. Qed.

  Lemma mode_ext : forall g c c' tr, (forall j, c j = c' j) -> mode g c tr -> mode g c' tr.
  Proof.
    intros g c c' tr E M.
    assert (DR : drel g c tr -> drel g c' tr).
    { intros [(i & e & st & os & t & l & K1 & K2)|[K1 K2]]; [left | right].
      - exists i, e, st, os, t, l. now rewrite <- E.
      - split; auto. intro. now rewrite <- E. }
    destruct M as [H1 H2|H1 H2 H3 H4 H5|H1 H2 H3 w e st p k H4 H5 H6 H7 H8|H1 H2 w e st p k H4 H5 H6 H7].
    - now apply Dead.
    - apply M2; auto. intro. now rewrite <- E.
    - apply (M3 _ _ _ H1 H2 H3 w e st p k); auto; [now rewrite <- E|]. intro. rewrite <- E. auto.
    - apply (M4 _ _ _ H1 H2 w e st p k); auto; [now rewrite <- E|]. destruct H7 as [[K1 K2]|K]; auto. left. split; auto. intro. rewrite <- E. auto.
  Qed.
  Lemma JT_ext : forall g c c' tr, (forall j, c j = c' j) -> JT g c tr -> JT g c' tr.
  Proof.
    intros g c c' tr E [P LK M]. constructor.
    - intro i. rewrite <- E. auto.
    - destruct LK as [[H (i & H1 & H2)]|[H H1]]; [left | right]; split; auto.
      + exists i. rewrite <- E. split; auto. intro j. rewrite <- E. auto.
      + intro j. rewrite <- E. auto.
    - eapply mode_ext; eauto.
  Qed.

  (** Steps of a call that has nothing on its way. *)
  Lemma mode_upd : forall g g' c i r' tr tr', mode g c tr -> busy (c i) = false -> busy r' = false ->
    g_op g' = g_op g -> g_down g' = g_down g -> dd tr' = dd tr -> (only0 (lins tr) -> only0 (lins tr')) ->
    mode g' (upd_run op c i r') tr'.
  Proof.
    intros g g' c i r' tr tr' M B1 B2 E1 E2 E3 E4.
    assert (DR : drel g c tr -> drel g' (upd_run op c i r') tr').
    { intro H. eapply down_upd; eauto; now apply call_busy. }
    assert (TL : forall j, tl (upd_run op c i r' j) = tl (c j)).
    { intro j. destruct (Nat.eq_dec j i) as [->|NE]; [|now rewrite upd_other]. rewrite upd_same, !tl_busy; auto. }
    assert (BZ : forall j, busy (upd_run op c i r' j) = busy (c j)).
    { intro j. destruct (Nat.eq_dec j i) as [->|NE]; [|now rewrite upd_other]. rewrite upd_same. congruence. }
    destruct M as [H1 H2|H1 H2 H3 H4 H5|H1 H2 H3 w e st p k H4 H5 H6 H7 H8|H1 H2 w e st p k H4 H5 H6 H7].
    - apply Dead; congruence.
    - apply M2; try rewrite E1; try rewrite E2; auto. intro. now rewrite TL.
    - assert (w <> i). { intros ->. rewrite H4 in B1. destruct H5; subst k; discriminate. }
      apply (M3 g' (upd_run op c i r') tr' ltac:(congruence) ltac:(congruence) (E4 H3) w e st p k); auto; [now rewrite upd_other by auto|]. intro. rewrite TL. auto.
    - assert (w <> i). { intros ->. rewrite H4 in B1. destruct H7 as [[[]  _]|]; subst k; discriminate. }
      apply (M4 g' (upd_run op c i r') tr' ltac:(congruence) ltac:(congruence) w e st p k); auto; [now rewrite upd_other by auto | congruence|].
      destruct H7 as [[K1 K2]|K]; auto. left. split; auto. intros j NE. rewrite BZ. auto.
  Qed.

  Lemma t_lin : forall g' c tr i e st k k', c i = Run op e st k false ->
    JT g' (upd_run op c i (Run op e st k' true)) (tr ++ [Lin i e]) ->
    exists c' tr' l', lmove op c c' tr tr' /\ c' i = Run op e st k l' /\ JT g' (upd_run op c' i (Run op e st k' l')) tr'.
  Proof.
    intros g' c tr i e st k k' C J. exists (upd_run op c i (Run op e st k true)), (tr ++ [Lin i e]), true.
    split; [now apply lmove_lin|]. split; [apply upd_same|]. eapply JT_ext; [|exact J].
    intro j. symmetry. apply upd_twice.
  Qed.
  Lemma t_no : forall g' c tr i e st k k' l, c i = Run op e st k l ->
    JT g' (upd_run op c i (Run op e st k' l)) tr ->
    exists c' tr' l', lmove op c c' tr tr' /\ c' i = Run op e st k l' /\ JT g' (upd_run op c' i (Run op e st k' l')) tr'.
  Proof. intros. exists c, tr, l. split; [apply lmove_refl|]. auto. Qed.

  Lemma JT_inv : forall g c tr i e st, JT g c tr -> c i = Idle op ->
    JT g (upd_run op c i (Run op e st P0 false)) (tr ++ [Vis (Inv i e)]).
  Proof.
    intros g c tr i e st [P LK M] C. constructor.
    - apply tphase_upd; auto. reflexivity.
    - eapply lock_upd; eauto. left. rewrite C. auto.
    - eapply mode_upd; eauto; [rewrite C; reflexivity | apply dd_vis | rewrite lins_vis; auto].
  Qed.

  (** The operator has already been stopped. *)
  Lemma t_skip : forall g c tr i e st m, JT g c tr -> c i = Run op e st (PPre m) false ->
    g_op g = true ->
    exists c' tr' l', lmove op c c' tr tr' /\ c' i = Run op e st (PPre m) l' /\
      JT g (upd_run op c' i (Run op e st PFin l')) tr'.
  Proof.
    intros g c tr i e st m [P LK M] C ST.
    destruct M as [H1 H2|H1 H2 H3 H4 H5|H1 H2 H3 w e0 st0 p k H4 H5 H6 H7 H8|H1 H2 w e0 st0 p k H4 H5 H6 H7].
    - eapply t_lin; eauto. constructor.
      + apply tphase_upd; auto. reflexivity.
      + eapply lock_upd; eauto. left. rewrite C. auto.
      + apply Dead; auto. rewrite dead_lin; auto. congruence.
    - congruence.
    - (* help the winner first *)
      assert (NE : w <> i). { intros ->. rewrite C in H4. injection H4 as _ _ <-. destruct H5; discriminate. }
      assert (W1 : w <= 1 /\ p = tpost w e0).
      { specialize (P w). rewrite H4 in P. destruct H5; subst k; cbn in P; tauto. }
      destruct W1 as [W1 W2].
      assert (NC : g_down g = dd tr).
      { destruct H8 as [(j & e1 & st1 & os & t & l & K1 & K2)|[_ K]]; auto. exfalso.
        assert (JJ : j <= 1) by (specialize (P j); rewrite K1 in P; cbn in P; tauto).
        assert (II : i <= 1) by (specialize (P i); rewrite C in P; cbn in P; tauto).
        assert (j = i \/ j = w) as [->| ->] by lia.
        - congruence.
        - rewrite H4 in K1. injection K1 as _ _ -> _. destruct H5; discriminate. }
      set (c1 := upd_run op c w (Run op e0 st0 k true)).
      assert (C1 : c1 i = Run op e st (PPre m) false) by (unfold c1; rewrite upd_other; auto).
      assert (DD : dd (tr ++ [Lin w e0]) = mstep D (g_down g) p).
      { rewrite dd_only0, NC, W2; auto. }
      assert (DE : mdisp D (dd (tr ++ [Lin w e0])) = true) by (rewrite DD; apply (law_term D L); auto).
      exists (upd_run op c1 i (Run op e st (PPre m) true)), ((tr ++ [Lin w e0]) ++ [Lin i e]), true.
      split; [|split; [apply upd_same|]].
      + eapply lmove_trans; [exact (lmove_lin op c tr w e0 st0 k H4) | now apply lmove_lin].
      + eapply JT_ext; [intro j; symmetry; apply upd_twice|]. constructor.
        * apply tphase_upd; [|reflexivity]. unfold c1. apply tphase_upd; auto. specialize (P w). rewrite H4 in P.
          destruct H5; subst k; cbn in *; intuition congruence.
        * eapply lock_upd with (g := g); [|left; rewrite C1; auto]. unfold c1. eapply lock_upd; eauto.
          left. rewrite H4. split; auto.
        * eapply M4 with (w := w); [exact H1 | exact H2 | rewrite upd_other by auto; unfold c1; now rewrite upd_same | exact H6 | |].
          -- rewrite dead_lin; auto.
          -- left. split; auto. intros j NW. destruct (Nat.eq_dec j i) as [->|NI]; [now rewrite upd_same|].
             rewrite upd_other by auto. unfold c1. rewrite upd_other by auto.
             assert (II : i <= 1) by (specialize (P i); rewrite C in P; cbn in P; tauto).
             specialize (P j). destruct (c j) as [|e2 st2 k2 l2]; auto. destruct k2; cbn in *; auto; lia.
    - assert (NE : w <> i). { intros ->. rewrite C in H4. injection H4 as _ _ <-. destruct H7 as [[[] _]|]; discriminate. }
      eapply t_lin; eauto. constructor.
      + apply tphase_upd; auto. reflexivity.
      + eapply lock_upd; eauto. left. rewrite C. auto.
      + eapply M4 with (w := w); [exact H1 | exact H2 | rewrite upd_other by auto; exact H4 | exact H5 | |].
        * rewrite dead_lin; auto. rewrite H6. now apply (law_term D L).
        * destruct H7 as [[K1 K2]|K]; auto. left. split; auto. intros j NW.
          destruct (Nat.eq_dec j i) as [->|NI]; [now rewrite upd_same | rewrite upd_other; auto].
  Qed.

  Lemma tl_of : forall e st p l, tl (Run op e st (PLock p) l) = is_term p /\ tl (Run op e st (PBody p) l) = is_term p.
  Proof. auto. Qed.

  (** The first to stop, or a value before the stop. *)
  Lemma t_go : forall (g : gs op D) c tr i e st m (s' : mo_S op), JT g c tr -> c i = Run op e st (PPre m) false -> i <= 1 ->
    g_op g = false -> s' = is_term (tpost i e) ->
    JT (GS (g_lock g) s' (g_own g) (g_down g)) (upd_run op c i (Run op e st (@PLock A A op (tpost i e)) false)) tr.
  Proof.
    intros g c tr i e st m s' [P LK M] C LE ST ->. constructor.
    - apply tphase_upd; auto. cbn. auto.
    - eapply lock_upd; eauto. left. rewrite C. auto.
    - destruct M as [H1 H2|H1 H2 H3 H4 H5|H1 H2 H3 w e0 st0 p k H4 H5 H6 H7 H8|H1 H2 w e0 st0 p k H4 H5 H6 H7]; try congruence.
      + now apply Dead.
      + assert (DR : drel (GS (g_lock g) (is_term (tpost i e) : mo_S op) (g_own g) (g_down g)) (upd_run op c i (Run op e st (@PLock A A op (tpost i e)) false)) tr).
        { eapply down_upd; eauto; rewrite C; reflexivity. }
        destruct (is_term (tpost i e)) eqn:T.
        * eapply M3 with (w := i); [exact H1 | reflexivity | exact H3 | apply upd_same | left; reflexivity | exact T | | exact DR]. intros j H.
          destruct (Nat.eq_dec j i); auto. rewrite upd_other in H by auto. rewrite H4 in H. discriminate.
        * apply M2; auto. intro j. destruct (Nat.eq_dec j i) as [->|NI]; [now rewrite upd_same | rewrite upd_other; auto].
  Qed.

  Lemma t_locked : forall g c tr i e st p l, JT g c tr -> c i = Run op e st (PLock p) l -> g_lock g = false ->
    JT (GS true (g_op g) (g_own g) (g_down g)) (upd_run op c i (Run op e st (PBody p) l)) tr.
  Proof.
    intros g c tr i e st p l [P LK M] C LF. pose proof (P i) as Pi. rewrite C in Pi. cbn in Pi. constructor.
    - apply tphase_upd; auto.
    - eapply lock_upd; eauto.
    - assert (DR : drel g c tr -> drel (GS true (g_op g) (g_own g) (g_down g)) (upd_run op c i (Run op e st (PBody p) l)) tr).
      { intro H. eapply down_upd; eauto; rewrite C; reflexivity. }
      assert (TL : forall j, tl (upd_run op c i (Run op e st (PBody p) l) j) = tl (c j)).
      { intro j. destruct (Nat.eq_dec j i) as [->|NE]; [|now rewrite upd_other]. rewrite upd_same, C. reflexivity. }
      destruct M as [H1 H2|H1 H2 H3 H4 H5|H1 H2 H3 w e0 st0 p0 k H4 H5 H6 H7 H8|H1 H2 w e0 st0 p0 k H4 H5 H6 H7].
      + now apply Dead.
      + apply M2; auto. intro. now rewrite TL.
      + destruct (Nat.eq_dec i w) as [->|NE].
        * rewrite C in H4. injection H4 as -> -> <- ->. destruct H5 as [H5|H5]; [|discriminate]. injection H5 as ->.
          eapply M3 with (w := w); [exact H1 | exact H2 | exact H3 | apply upd_same | right; reflexivity | exact H6 | intro; rewrite TL; auto | auto].
        * eapply M3 with (w := w); [exact H1 | exact H2 | exact H3 | rewrite upd_other by auto; exact H4 | exact H5 | exact H6 | intro; rewrite TL; auto | auto].
      + destruct (Nat.eq_dec i w) as [->|NE].
        * rewrite C in H4. injection H4 as -> -> <- ->. destruct H7 as [[[K|K] K2]|K]; try discriminate. injection K as ->.
          eapply M4 with (w := w); [exact H1 | exact H2 | apply upd_same | exact H5 | exact H6 |]. left. split; auto. intros j NW. rewrite upd_other; auto.
        * exfalso. destruct H7 as [[_ K]|K].
          -- specialize (K i NE). rewrite C in K. discriminate.
          -- subst k. destruct LK as [[LK _]|[_ LK]]; [congruence|]. specialize (LK w). rewrite H4 in LK. discriminate.
  Qed.

  Lemma t_body : forall g c tr i e st p l, JT g c tr -> c i = Run op e st (PBody p) l ->
    exists c' tr' l', lmove op c c' tr tr' /\ c' i = Run op e st (PBody p) l' /\
      JT (GS (g_lock g) (g_op g) (g_own g) (g_down g)) (upd_run op c' i (Run op e st (PCall [p] None) l')) tr'.
  Proof.
    intros g c tr i e st p l [P LK M] C. pose proof (P i) as Pi. rewrite C in Pi. cbn in Pi. destruct Pi as (Pp & Pl & Pi).
    destruct (holder op D g c i LK ltac:(rewrite C; reflexivity)) as [HL HC].
    assert (GD : drel g c tr -> g_down g = dd tr).
    { intros [(j & e1 & st1 & os1 & t1 & l1 & K1 & K2)|[_ K]]; auto. exfalso.
      destruct (Nat.eq_dec j i) as [->|NE]; [rewrite C in K1; discriminate|].
      specialize (HC j NE). rewrite K1 in HC. discriminate. }
    assert (P' : forall j, tphase j (upd_run op c i (Run op e st (PCall [p] None) true) j)).
    { apply tphase_upd; auto. subst p. cbn. auto. }
    assert (LK' : forall l2, (g_lock g = true /\ exists k, at_lock op (upd_run op c i (Run op e st (PCall [p] None) l2) k) = true /\
        forall j, at_lock op (upd_run op c i (Run op e st (PCall [p] None) l2) j) = true -> j = k) \/
        (g_lock g = false /\ forall j, at_lock op (upd_run op c i (Run op e st (PCall [p] None) l2) j) = false)).
    { intro l2. eapply lock_upd; eauto. left. rewrite C. auto. }
    assert (TL : forall j, tl (upd_run op c i (Run op e st (PCall [p] None) true) j) = tl (c j)).
    { intro j. destruct (Nat.eq_dec j i) as [->|NE]; [|now rewrite upd_other]. rewrite upd_same, C. cbn. apply orb_false_r. }
    destruct M as [H1 H2|H1 H2 H3 H4 H5|H1 H2 H3 w e0 st0 p0 k H4 H5 H6 H7 H8|H1 H2 w e0 st0 p0 k H4 H5 H6 H7].
    - destruct l.
      + eapply t_no; eauto. constructor; auto. now apply Dead.
      + eapply t_lin; eauto. constructor; auto. apply Dead; auto. rewrite dead_lin; auto. congruence.
    - assert (T : is_term p = false) by (specialize (H4 i); rewrite C in H4; auto).
      rewrite (Pl T) in *. eapply t_lin; eauto. constructor; auto.
      assert (i = 0).
      { destruct (Nat.eqb_spec i 0); auto. subst p. unfold tpost in T. rewrite (proj2 (Nat.eqb_neq i 0)) in T by auto.
        destruct e; discriminate. }
      subst i. apply M2; auto.
      + apply only0_lin; auto. subst p. auto.
      + intro. now rewrite TL.
      + left. exists 0, e, st, [p], None, true. rewrite upd_same. split; auto. cbn. rewrite dd_only0, (GD H5), Pp; auto.
    - destruct (Nat.eq_dec i w) as [->|NE].
      + rewrite C in H4. injection H4 as -> -> <- ->. destruct H5 as [H5|H5]; [discriminate|]. injection H5 as ->.
        eapply t_lin; eauto. constructor; auto.
        eapply M4 with (w := w); [exact H1 | exact H2 | apply upd_same | exact H6 | | right; reflexivity]. rewrite dd_only0 by auto. cbn. rewrite (GD H8), <- Pp. reflexivity.
      + assert (T : is_term p = false).
        { destruct (is_term p) eqn:T; auto. exfalso. apply NE. apply H7. rewrite C. exact T. }
        rewrite (Pl T) in *. eapply t_lin; eauto. constructor; auto.
        assert (i = 0).
        { destruct (Nat.eqb_spec i 0); auto. subst p. unfold tpost in T. rewrite (proj2 (Nat.eqb_neq i 0)) in T by auto.
          destruct e; discriminate. }
        subst i. eapply M3 with (w := w); [exact H1 | exact H2 | | rewrite upd_other by auto; exact H4 | exact H5 | exact H6 | |].
        * apply only0_lin; auto. subst p. auto.
        * intro. rewrite TL. auto.
        * left. exists 0, e, st, [p], None, true. rewrite upd_same. split; auto. cbn. rewrite dd_only0, (GD H8), Pp; auto.
    - destruct (Nat.eq_dec i w) as [->|NE].
      + rewrite C in H4. injection H4 as -> -> <- ->. destruct H7 as [[[K|K] K2]|K]; try discriminate. injection K as ->.
        eapply t_no; eauto. constructor; auto.
        eapply M4 with (w := w); [exact H1 | exact H2 | apply upd_same | exact H5 | exact H6 | right; reflexivity].
      + exfalso. destruct H7 as [[_ K]|K].
        * specialize (K i NE). rewrite C in K. discriminate.
        * subst k. specialize (HC w ltac:(auto)). rewrite H4 in HC. discriminate.
  Qed.

  Lemma t_call : forall g c tr i e st os l, JT g c tr -> c i = Run op e st (PCall os None) l ->
    JT (GS (g_lock g) (g_op g) (g_own g) (mrun D (g_down g) os)) (upd_run op c i (Run op e st (PUnlock None) l)) tr.
  Proof.
    intros g c tr i e st os l [P LK M] C. pose proof (P i) as Pi. rewrite C in Pi. cbn in Pi. destruct Pi as (-> & _ & Po & Pi).
    destruct (holder op D g c i LK ltac:(rewrite C; reflexivity)) as [HL HC].
    assert (GD : drel g c tr -> mrun D (g_down g) os = dd tr).
    { intros [(j & e1 & st1 & os1 & t1 & l1 & K1 & K2)|[K _]].
      - destruct (Nat.eq_dec j i) as [->|NE]; [rewrite C in K1; injection K1 as <- <- <- <- <-; auto|].
        specialize (HC j NE). rewrite K1 in HC. discriminate.
      - specialize (K i). rewrite C in K. discriminate. }
    assert (DR : drel g c tr -> drel (GS (g_lock g) (g_op g) (g_own g) (mrun D (g_down g) os)) (upd_run op c i (Run op e st (PUnlock None) true)) tr).
    { intro H. right. cbn. split; auto. intro j. destruct (Nat.eq_dec j i) as [->|NE]; [now rewrite upd_same | rewrite upd_other; auto]. }
    constructor.
    - apply tphase_upd; auto. cbn. auto.
    - eapply lock_upd; eauto. left. rewrite C. auto.
    - destruct M as [H1 H2|H1 H2 H3 H4 H5|H1 H2 H3 w e0 st0 p0 k H4 H5 H6 H7 H8|H1 H2 w e0 st0 p0 k H4 H5 H6 H7].
      + apply Dead; cbn; rewrite (mrun_dead A D L); auto.
      + destruct (mdisp D (mrun D (g_down g) os)) eqn:MD; [apply Dead; auto|].
        apply M2; auto. intro j. destruct (Nat.eq_dec j i) as [->|NE]; [now rewrite upd_same | rewrite upd_other; auto].
      + assert (NE : w <> i). { intros ->. rewrite C in H4. injection H4 as _ _ <-. destruct H5; discriminate. }
        destruct (mdisp D (mrun D (g_down g) os)) eqn:MD; [apply Dead; auto|].
        eapply M3 with (w := w); [exact MD | exact H2 | exact H3 | rewrite upd_other by auto; exact H4 | exact H5 | exact H6 | | auto].
        intros j H. destruct (Nat.eq_dec j i) as [->|NI]; [now rewrite upd_same in H | rewrite upd_other in H; auto].
      + destruct (Nat.eq_dec i w) as [->|NE].
        * rewrite C in H4. injection H4 as -> -> <-. destruct H7 as [[[K|K] K2]|K]; try discriminate. injection K as ->.
          apply Dead; cbn; auto. now apply (law_term D L).
        * exfalso. destruct H7 as [[_ K]|K].
          -- specialize (K i NE). rewrite C in K. discriminate.
          -- subst k. specialize (HC w ltac:(auto)). rewrite H4 in HC. discriminate.
  Qed.

  Lemma t_pre : forall m s i e, i <= 1 ->
    mo_pre op m s i e = (s || is_term (tpost i e), if s then PRet else PGo (tpost i e)).
  Proof.
    intros m s i e LE. destruct i as [|[|i]]; [| |lia]; destruct e, s; reflexivity.
  Qed.

  Lemma JT_step : forall g c tr i e st k l g' k' n, JT g c tr -> c i = Run op e st k l ->
    pst g i e st k = Some (g', Some k', n) ->
    exists c' tr' l', lmove op c c' tr tr' /\ c' i = Run op e st k l' /\ JT g' (upd_run op c' i (Run op e st k' l')) tr'.
  Proof.
    intros g c tr i e st k l g' k' n J C S. pose proof (t_phase _ _ _ J i) as PH. rewrite C in PH.
    destruct k as [|m|p|p|os t|t|x|]; cbn [tphase] in PH; unfold pstep in S; cbv beta iota in S.
    - subst l. destruct (mo_ready op (g_op g) i) eqn:RD; cbn [negb] in S; [|discriminate].
      destruct (mo_gate_locks op && g_lock g); [discriminate|].
      destruct (gate op D g i st) eqn:G; [discriminate|]. injection S as <- <- _.
      eapply t_no; eauto. destruct J as [P LK M]. constructor.
      + apply tphase_upd; auto. cbn. split; auto. now apply Nat.leb_le.
      + eapply lock_upd; eauto. left. rewrite C. auto.
      + eapply mode_upd; eauto; rewrite C; reflexivity.
    - destruct PH as [-> LE]. rewrite (t_pre _ _ _ _ LE) in S. destruct g as [lk s ow d]. cbn [g_op g_lock g_own g_down] in S.
      destruct s; cbn [orb] in S; injection S as <- <- _.
      + eapply t_skip; eauto.
      + eapply t_no; eauto. eapply t_go with (g := GS lk (false : mo_S op) ow d); eauto.
    - destruct (g_lock g) eqn:LQ; [discriminate|]. injection S as <- <- _.
      eapply t_no; eauto. eapply t_locked; eauto.
    - injection S as <- <- _. eapply t_body; eauto.
    - destruct PH as (-> & -> & _). injection S as <- <- _. eapply t_no; eauto. eapply t_call; eauto.
    - destruct PH as [-> ->]. injection S as <- <- _. eapply t_no; eauto. destruct J as [P LK M]. constructor.
      + apply tphase_upd; auto. reflexivity.
      + eapply lock_upd; eauto. right. right. rewrite C. auto.
      + eapply mode_upd; eauto; rewrite C; reflexivity.
    - destruct PH.
    - discriminate.
  Qed.

  Lemma JT_ret : forall g c tr i e st k l g' n, JT g c tr -> c i = Run op e st k l ->
    pst g i e st k = Some (g', None, n) ->
    exists c' tr', lmove op c c' tr tr' /\ c' i = Run op e st k true /\ JT g' (upd_run op c' i (Idle op)) (tr' ++ [Vis (Ret i e)]).
  Proof.
    intros g c tr i e st k l g' n J C S. pose proof (t_phase _ _ _ J i) as PH. rewrite C in PH.
    destruct k as [|m|p|p|os t|t|x|]; cbn [tphase] in PH; unfold pstep in S; cbv beta iota in S.
    - subst l. destruct (mo_ready op (g_op g) i) eqn:RD; cbn [negb] in S; [|discriminate].
      destruct (mo_gate_locks op && g_lock g); [discriminate|].
      destruct (gate op D g i st) eqn:G; [|discriminate]. injection S as <- _.
      exists (upd_run op c i (Run op e st P0 true)), (tr ++ [Lin i e]). split; [now apply lmove_lin|]. split; [apply upd_same|].
      eapply JT_ext; [intro j; symmetry; apply upd_twice|]. destruct J as [P LK M].
      unfold gate in G. cbn in G. apply andb_prop in G as [G _].
      constructor.
      + apply tphase_upd; auto. exact I.
      + eapply lock_upd; eauto. left. rewrite C. auto.
      + destruct M as [H1 H2|H1 H2 H3 H4 H5|H1 H2 H3 w e0 st0 p0 k H4 H5 H6 H7 H8|H1 H2 w e0 st0 p0 k H4 H5 H6 H7]; try congruence.
        apply Dead; auto. rewrite dd_vis, dead_lin; auto. congruence.
    - destruct PH as [-> LE]. rewrite (t_pre _ _ _ _ LE) in S. destruct (g_op g); discriminate.
    - destruct (g_lock g); discriminate.
    - discriminate.
    - discriminate.
    - discriminate.
    - destruct PH.
    - subst l. injection S as <- _. exists c, tr. split; [apply lmove_refl|]. split; auto.
      destruct J as [P LK M]. constructor.
      + apply tphase_upd; auto. exact I.
      + eapply lock_upd; eauto. left. rewrite C. auto.
      + eapply mode_upd; eauto; [rewrite C; reflexivity | apply dd_vis | rewrite lins_vis; auto].
  Qed.

  Lemma JT_init : JT (g_init op D d0) (fun _ => Idle op) [].
  Proof.
    constructor; cbn; auto. destruct (mdisp D d0) eqn:M; [now apply Dead|]. apply M2; auto.
    - intros ? ? [].
    - right. split; reflexivity.
  Qed.

  (** At any moment the downstream is at most one event behind the specification. *)
  Theorem take_until_linearizable : forall progs tr c,
    gexec (istep op D (fun _ => [])) (g_init op D d0, threads op progs) tr c ->
    exists h os, linearized (map (map fst) progs) tr h /\
      length os <= 1 /\ mrun D (g_down (fst c)) os = mrun D d0 (outs out h) /\
      (gfinished c -> os = [] /\ g_lock (fst c) = false).
  Proof.
    intros progs tr c X.
    destruct (lin_generic op D progs JT JT_inv JT_step JT_ret d0 JT_init tr c X) as (cu & tr' & E & J & PR & FN).
    assert (LI : linearized (map (map fst) progs) tr (lins tr')).
    { exists tr'. repeat split; auto. intro i. change (@nil (ev A)) with (map (@fst (ev A) bool) []). rewrite map_nth. auto. }
    destruct J as [P LK M].
    assert (LF : gfinished c -> g_lock (fst c) = false).
    { intro F. destruct LK as [[H (i & K & _)]|[H _]]; auto. destruct (FN F i) as [FI _]. rewrite FI in K. discriminate. }
    assert (DR : drel (fst c) cu tr' -> exists os, length os <= 1 /\ mrun D (g_down (fst c)) os = dd tr' /\ (gfinished c -> os = [])).
    { intros [(i & e & st & os & t & l & K1 & K2)|[_ K]].
      - exists os. specialize (P i). rewrite K1 in P. cbn in P. destruct P as (_ & _ & Po & _). split; [rewrite Po; cbn; lia|].
        split; auto. intro F. destruct (FN F i) as [FI _]. congruence.
      - exists []. cbn. auto. }
    destruct M as [H1 H2|H1 H2 H3 H4 H5|H1 H2 H3 w e0 st0 p0 k H4 H5 H6 H7 H8|H1 H2 w e0 st0 p0 k H4 H5 H6 H7].
    - exists (lins tr'), []. cbn. repeat split; auto.
    - destruct (DR H5) as (os & K1 & K2 & K3). exists (lins tr'), os. repeat split; auto.
    - destruct (DR H8) as (os & K1 & K2 & K3). exists (lins tr'), os. repeat split; auto.
    - exists (lins tr'), [p0]. split; [exact LI|]. split; [cbn; lia|]. split; [symmetry; exact H6|]. intro F. destruct (FN F w) as [FI _]. congruence.
  Qed.
End TakeUntil.
