(** Facts on histories, and linearizability of the operators that count the sources
    still running: merge, combine_latest and zip. *)
From Verif Require Import Base Machine MachineProofs Concur MultiSpec MultiModel MultiLin.

Definition endedb {A} (i : nat) (h : hist A) : bool :=
  existsb (fun x => (fst x =? i) && is_term (snd x)) h.

Lemma endedb_app : forall A i (a b : hist A), endedb i (a ++ b) = endedb i a || endedb i b.
Proof. intros. apply existsb_app. Qed.
Lemma completed_app : forall A i (a b : hist A), completed i (a ++ b) = completed i a || completed i b.
Proof. intros. apply existsb_app. Qed.
Lemma values_app : forall A i (a b : hist A), values i (a ++ b) = values i a ++ values i b.
Proof. intros. apply flat_map_app. Qed.
Lemma opened_app : forall V (a b : hist (unit + V)), opened (a ++ b) = opened a + opened b.
Proof. intros. unfold opened. now rewrite filter_app, app_length. Qed.

Lemma completed_ended : forall A i (h : hist A), endedb i h = false -> completed i h = false.
Proof.
  unfold endedb, completed. induction h as [|[j e] h IH]; cbn; auto. intro H. apply orb_false_iff in H as [H1 H2].
  rewrite IH by auto. destruct (j =? i); cbn in *; auto. destruct e; auto; discriminate.
Qed.

Lemma live_from_snoc : forall A (h : hist A) en i e,
  live_from en (h ++ [(i, e)]) =
  live_from en h ++ (if existsb (Nat.eqb i) en || endedb i (live_from en h) then [] else [(i, e)]).
Proof.
  induction h as [|[j x] h IH]; intros en i e; cbn [app live_from].
  - cbn. rewrite orb_false_r. destruct (existsb (Nat.eqb i) en); reflexivity.
  - destruct (existsb (Nat.eqb j) en) eqn:E.
    + apply IH.
    + rewrite IH. cbn. f_equal. f_equal. rewrite (Nat.eqb_sym j i).
      destruct (is_term x) eqn:T; cbn.
      * destruct (i =? j) eqn:Q; cbn; auto. now rewrite orb_true_r.
      * now rewrite andb_false_r.
Qed.
Lemma live_snoc : forall A (h : hist A) i e,
  live (h ++ [(i, e)]) = live h ++ (if endedb i (live h) then [] else [(i, e)]).
Proof. intros. unfold live. now rewrite live_from_snoc. Qed.

Lemma outs_from_app : forall A B (out : hist A -> nat -> ev A -> list (ev B)) a b past,
  outs_from out past (a ++ b) = outs_from out past a ++ outs_from out (past ++ a) b.
Proof.
  induction a as [|[i e] a IH]; intros b past; cbn.
  - now rewrite app_nil_r.
  - rewrite IH, <- !app_assoc. reflexivity.
Qed.
Lemma outs_snoc : forall A B (out : hist A -> nat -> ev A -> list (ev B)) h i e,
  outs out (h ++ [(i, e)]) = outs out h ++ (if endedb i (live h) then [] else out (live h) i e).
Proof.
  intros. unfold outs. rewrite live_snoc, outs_from_app. cbn. f_equal.
  destruct (endedb i (live h)); cbn; auto. now rewrite app_nil_r.
Qed.

(** Sources still running. *)
Definition opn {A} (n : nat) (h : hist A) : list nat := filter (fun j => negb (completed j h)) (seq 0 n).

Lemma filter_minus : forall (p : nat -> bool) i l, NoDup l -> In i l -> p i = true ->
  length (filter p l) = S (length (filter (fun j => p j && negb (j =? i)) l)).
Proof.
  induction l as [|x l IH]; intros ND I P; [destruct I|].
  inversion ND as [|? ? NI ND']; subst. cbn. destruct (Nat.eq_dec x i) as [->|N].
  - rewrite P, Nat.eqb_refl. cbn. f_equal. f_equal.
    assert (E : forall m, ~ In i m -> filter p m = filter (fun j => p j && negb (j =? i)) m).
    { induction m as [|y m IHm]; intro NM; auto. cbn. assert (y <> i) by (intro; subst; apply NM; now left).
      apply Nat.eqb_neq in H. rewrite H. cbn. rewrite andb_true_r, IHm; auto. intro; apply NM; now right. }
    now apply E.
  - destruct I as [I|I]; [congruence|]. rewrite (proj2 (Nat.eqb_neq x i) N). cbn. rewrite andb_true_r.
    destruct (p x); cbn; rewrite IH; auto.
Qed.

Lemma opn_done : forall A n (h : hist A) i, i < n -> completed i h = false ->
  length (opn n h) = S (length (opn n (h ++ [(i, Done)]))).
Proof.
  intros A n h i L C. unfold opn.
  rewrite (filter_minus (fun j => negb (completed j h)) i).
  - f_equal. f_equal. apply filter_ext. intro j. rewrite completed_app. cbn. rewrite orb_false_r, andb_true_r, negb_orb.
    now rewrite (Nat.eqb_sym i j).
  - apply seq_NoDup.
  - apply in_seq. lia.
  - now rewrite C.
Qed.
Lemma opn_in : forall A n (h : hist A) i, i < n -> completed i h = false -> In i (opn n h).
Proof. intros. apply filter_In. split; [apply in_seq; lia | now rewrite H0]. Qed.
Lemma opn_same : forall A n (h b : hist A), (forall i, completed i b = false) -> opn n (h ++ b) = opn n h.
Proof. intros. apply filter_ext. intro j. now rewrite completed_app, H, orb_false_r. Qed.
Lemma opn_all : forall A n (h : hist A),
  forallb (fun j => completed j h) (seq 0 n) = (length (opn n h) =? 0).
Proof.
  intros. unfold opn. induction (seq 0 n) as [|x l IH]; auto. cbn. rewrite IH.
  destruct (completed x h); cbn; auto.
Qed.
Lemma opn_S : forall A n (h : hist A), completed n h = false -> length (opn (S n) h) = S (length (opn n h)).
Proof.
  intros. unfold opn. replace (S n) with (n + 1) by lia. rewrite seq_app, filter_app, app_length. cbn. rewrite H. cbn. lia.
Qed.

Section Count.
  Context {A B : Type} (o : mop A B) (D : machine B).
  Variable out : hist A -> nat -> ev A -> list (ev B).
  Variable N : hist A -> nat.
  Variable cnt : mo_S o -> nat.
  Variable R : mo_S o -> hist A -> Prop.
  Variable go : nat -> ev A -> bool.
  Variable post : ev A -> nat -> mo_P o.

  Hypothesis L : lawful D.
  Hypothesis own : forall i, mo_own o i = true.
  Hypothesis nogate : forall s i, mo_gate o s i = false.
  Hypothesis nolock : mo_gate_locks o = false.
  Hypothesis pre_shape : forall n s i e, (exists s', mo_pre o n s i e = (s', PRet)) \/
    (exists s', mo_pre o n s i e = (s', PGo (post e i)) /\ go i e = true).
  Hypothesis body_shape : forall s p, snd (mo_body o s p) = None.
  Hypothesis R_init : R (mo_init o) [].
  Hypothesis cnt_init : cnt (mo_init o) = N [].
  Hypothesis ready : forall s h i, R s h -> mo_ready o s i = true -> i < N h.
  (** values *)
  Hypothesis pre_next : forall n s h i v, R s h -> i < N h -> endedb i h = false ->
    match mo_pre o n s i (Next v) with
    | (s', PGo _) => s' = s
    | (s', PRet) => out h i (Next v) = [] /\ R s' (h ++ [(i, Next v)]) /\
                    (N (h ++ [(i, Next v)]) = N h /\ cnt s' = cnt s \/
                     N (h ++ [(i, Next v)]) = S (N h) /\ cnt s' = S (cnt s) /\ i = 0 /\ completed (N h) h = false)
    | _ => False
    end.
  Hypothesis body_next : forall s h i v, R s h -> i < N h -> endedb i h = false -> go i (Next v) = true ->
    N (h ++ [(i, Next v)]) = N h /\
    exists s', mo_body o s (post (Next v) i) = (s', out h i (Next v), None) /\ R s' (h ++ [(i, Next v)]) /\ cnt s' = cnt s.
  (** errors *)
  Hypothesis pre_err : forall n s i x, mo_pre o n s i (Err x) = (s, PGo (post (Err x) i)).
  Hypothesis body_err : forall s i x, mo_body o s (post (Err x) i) = (s, [Err x], None).
  Hypothesis out_err : forall h i x, out h i (Err x) = [Err x].
  (** completions *)
  Hypothesis pre_done : forall n s i, exists s', mo_pre o n s i Done = (s', if cnt s =? 1 then PGo (post Done i) else PRet) /\
    cnt s' = cnt s - 1 /\ forall h, R s h -> i < N h -> R s' h /\ R s' (h ++ [(i, Done)]).
  Hypothesis body_done : forall s i, mo_body o s (post Done i) = (s, [Done], None).
  Hypothesis out_done : forall h i, N (h ++ [(i, Done)]) = N h /\
    out h i Done = if forallb (fun j => completed j (h ++ [(i, Done)])) (seq 0 (N h)) then [Done] else [].

  Variable d0 : mst D.
  Notation run := (run o).
  Notation pst := (pstep o D (fun _ => @nil (nat * ev A))).

  Definition at_lock (r : run) : bool :=
    match r with Run _ _ _ (PBody _) _ | Run _ _ _ (PCall _ _) _ | Run _ _ _ (PUnlock _) _ => true | _ => false end.
  Definition at_call (r : run) : bool := match r with Run _ _ _ (PCall _ _) _ => true | _ => false end.
  Definition phase (i : nat) (r : run) : Prop :=
    match r with
    | Idle _ => True
    | Run _ e st k l =>
        match k with
        | P0 | PPre _ => l = false
        | PLock p | PBody p => l = false /\ p = post e i /\ go i e = true
        | PCall _ t | PUnlock t => l = true /\ t = None
        | PCatch _ => False
        | PFin => l = true
        end
    end.
  Definition infl (r : run) : bool :=
    match r with
    | Run _ e _ (PLock _) _ | Run _ e _ (PBody _) _ => match e with Done => true | _ => false end
    | _ => false
    end.
  Definition flags (g : gs o D) (lh : hist A) (i : nat) (r : run) : Prop :=
    match r with
    | Idle _ => owned o D g i = endedb i lh
    | Run _ e st k l =>
        match k with
        | P0 => owned o D g i = endedb i lh
        | PPre _ | PLock _ | PBody _ => owned o D g i = false /\ endedb i lh = false /\ i < N lh
        | PCall _ _ | PUnlock _ | PFin => owned o D g i = false /\ endedb i lh = is_term e
        | PCatch _ => False
        end
    end.
  Definition counts (s : mo_S o) (c : nat -> run) (lh : hist A) : Prop :=
    ((forall i, infl (c i) = false) /\ cnt s = length (opn (N lh) lh)) \/
    exists i, infl (c i) = true /\ (forall j, infl (c j) = true -> j = i) /\ cnt s = 0 /\ opn (N lh) lh = [i].

  Definition dd (tr : list (alab A)) : mst D := mrun D d0 (outs out (lins tr)).

  Record JC (g : gs o D) (c : nat -> run) (tr : list (alab A)) : Prop := {
    j_phase : forall i, phase i (c i);
    j_lock : (g_lock g = true /\ exists i, at_lock (c i) = true /\ forall j, at_lock (c j) = true -> j = i) \/
             (g_lock g = false /\ forall j, at_lock (c j) = false);
    j_down : (exists i e st os t l, c i = Run o e st (PCall os t) l /\ mrun D (g_down g) os = dd tr) \/
             ((forall i, at_call (c i) = false) /\ g_down g = dd tr);
    j_rest : mdisp D (dd tr) = false ->
             (forall i, flags g (live (lins tr)) i (c i)) /\ counts (g_op g) c (live (lins tr)) /\ R (g_op g) (live (lins tr))
  }.

  Lemma dd_lin : forall tr i e, dd (tr ++ [Lin i e]) =
    mrun D (dd tr) (if endedb i (live (lins tr)) then [] else out (live (lins tr)) i e).
  Proof. intros. unfold dd. rewrite lins_app. cbn. now rewrite outs_snoc, mrun_app. Qed.
  Lemma dd_vis : forall tr l, dd (tr ++ [Vis l]) = dd tr.
  Proof. intros. unfold dd. rewrite lins_app. cbn. now rewrite app_nil_r. Qed.
  Lemma lins_vis : forall tr (l : lab A), lins (tr ++ [Vis l]) = lins tr.
  Proof. intros. rewrite lins_app. cbn. now rewrite app_nil_r. Qed.
  Lemma dd_alive : forall tr i e, mdisp D (dd (tr ++ [Lin i e])) = false -> mdisp D (dd tr) = false.
  Proof.
    intros tr i e H. rewrite dd_lin in H. destruct (mdisp D (dd tr)) eqn:Q; auto.
    now rewrite (mrun_dead B D L) in H by auto; congruence.
  Qed.
  Lemma live_lin : forall (tr : list (alab A)) i e, live (lins (tr ++ [Lin i e])) =
    live (lins tr) ++ (if endedb i (live (lins tr)) then [] else [(i, e)]).
  Proof. intros. rewrite lins_app. cbn. apply live_snoc. Qed.

  Lemma flags_other : forall g g' lh lh' j r, flags g lh j r -> owned o D g' j = owned o D g j ->
    endedb j lh' = endedb j lh -> N lh <= N lh' -> flags g' lh' j r.
  Proof.
    intros g g' lh lh' j r F E1 E2 E3. destruct r as [|e st k l]; cbn in *; [congruence|].
    destruct k; cbn in *; auto; rewrite ?E1, ?E2; intuition lia.
  Qed.

  Lemma lock_upd : forall (g g' : gs o D) c i r',
    ((g_lock g = true /\ exists i, at_lock (c i) = true /\ forall j, at_lock (c j) = true -> j = i) \/
     (g_lock g = false /\ forall j, at_lock (c j) = false)) ->
    (at_lock r' = at_lock (c i) /\ g_lock g' = g_lock g) \/
    (g_lock g = false /\ at_lock r' = true /\ g_lock g' = true) \/
    (at_lock (c i) = true /\ at_lock r' = false /\ g_lock g' = false) ->
    (g_lock g' = true /\ exists k, at_lock (upd_run o c i r' k) = true /\ forall j, at_lock (upd_run o c i r' j) = true -> j = k) \/
    (g_lock g' = false /\ forall j, at_lock (upd_run o c i r' j) = false).
  Proof.
    intros g g' c i r' LK [[E1 E2]|[(E1 & E2 & E3)|(E1 & E2 & E3)]].
    - rewrite E2. assert (Q : forall j, at_lock (upd_run o c i r' j) = at_lock (c j)).
      { intro j. unfold upd_run. destruct (Nat.eqb_spec j i); subst; auto. }
      destruct LK as [[H (k & K1 & K2)]|[H K]]; [left | right]; split; auto.
      + exists k. rewrite Q. split; auto. intros j. rewrite Q. auto.
      + intro j. rewrite Q. auto.
    - left. split; auto. exists i. destruct LK as [[H _]|[H K]]; [congruence|]. rewrite upd_same. split; auto.
      intros j Hj. destruct (Nat.eq_dec j i); auto. rewrite upd_other in Hj by auto. now rewrite K in Hj.
    - right. split; auto. intro j. destruct (Nat.eq_dec j i) as [->|NE]; [now rewrite upd_same|].
      rewrite upd_other by auto. destruct LK as [[H (k & K1 & K2)]|[H K]]; auto.
      destruct (at_lock (c j)) eqn:Q; auto. apply K2 in Q. apply K2 in E1. congruence.
  Qed.

  Lemma down_upd : forall (g g' : gs o D) c i r' tr tr',
    ((exists i e st os t l, c i = Run o e st (PCall os t) l /\ mrun D (g_down g) os = dd tr) \/
     ((forall i, at_call (c i) = false) /\ g_down g = dd tr)) ->
    at_call (c i) = false -> at_call r' = false -> g_down g' = g_down g -> dd tr' = dd tr ->
    (exists k e st os t l, upd_run o c i r' k = Run o e st (PCall os t) l /\ mrun D (g_down g') os = dd tr') \/
    ((forall k, at_call (upd_run o c i r' k) = false) /\ g_down g' = dd tr').
  Proof.
    intros g g' c i r' tr tr' [(k & e & st & os & t & l & K1 & K2)|[K1 K2]] C R' G T.
    - left. exists k, e, st, os, t, l. rewrite G, T. split; auto. rewrite upd_other; auto.
      intros ->. rewrite K1 in C. discriminate.
    - right. rewrite G, T. split; auto. intro k. destruct (Nat.eq_dec k i) as [->|NE]; [now rewrite upd_same | now rewrite upd_other].
  Qed.

  Lemma counts_upd : forall s c lh i r', counts s c lh -> infl r' = infl (c i) -> counts s (upd_run o c i r') lh.
  Proof.
    intros s c lh i r' CT E. assert (Q : forall j, infl (upd_run o c i r' j) = infl (c j)).
    { intro j. unfold upd_run. destruct (Nat.eqb_spec j i); subst; auto. }
    destruct CT as [[C1 C2]|(k & C1 & C2 & C3 & C4)]; [left | right].
    - split; auto. intro j. now rewrite Q.
    - exists k. rewrite Q. repeat split; auto. intro j. rewrite Q. auto.
  Qed.

  Lemma JC_ext : forall g c c' tr, (forall j, c j = c' j) -> JC g c tr -> JC g c' tr.
  Proof.
    intros g c c' tr E [P LK DN RS]. constructor.
    - intro i. rewrite <- E. auto.
    - destruct LK as [[H (i & H1 & H2)]|[H H1]]; [left | right]; split; auto.
      + exists i. rewrite <- E. split; auto. intro j. rewrite <- E. auto.
      + intro j. rewrite <- E. auto.
    - destruct DN as [(i & e & st & os & t & l & H1 & H2)|[H1 H2]]; [left | right].
      + exists i, e, st, os, t, l. now rewrite <- E.
      + split; auto. intro j. rewrite <- E. auto.
    - intro M. destruct (RS M) as (F & CT & RR). split; [|split]; auto.
      + intro i. rewrite <- E. auto.
      + destruct CT as [[C1 C2]|(k & C1 & C2 & C3 & C4)]; [left | right].
        * split; auto. intro j. rewrite <- E. auto.
        * exists k. rewrite <- E. repeat split; auto. intro j. rewrite <- E. auto.
  Qed.

  Lemma upd_twice : forall (c : nat -> run) i a b j, upd_run o (upd_run o c i a) i b j = upd_run o c i b j.
  Proof. intros. unfold upd_run. destruct (j =? i); auto. Qed.

  Lemma owned_cons : forall (g : gs o D) lk s d i j,
    owned o D (GS lk s (i :: g_own g) d) j = (j =? i) || owned o D g j.
  Proof. reflexivity. Qed.

  Lemma rest_same : forall (g g' : gs o D) c i r' lh,
    ((forall i, flags g lh i (c i)) /\ counts (g_op g) c lh /\ R (g_op g) lh) ->
    g_op g' = g_op g -> g_own g' = g_own g -> infl r' = infl (c i) -> flags g lh i r' ->
    (forall j, flags g' lh j (upd_run o c i r' j)) /\ counts (g_op g') (upd_run o c i r') lh /\ R (g_op g') lh.
  Proof.
    intros g g' c i r' lh (F & CT & RR) E1 E2 E3 F'. rewrite E1. split; [|split]; auto.
    - intro j. assert (O : forall k, owned o D g' k = owned o D g k) by (intro k; unfold owned; now rewrite E2).
      destruct (Nat.eq_dec j i) as [->|NE].
      + rewrite upd_same. eapply flags_other; eauto.
      + rewrite upd_other by auto. eapply flags_other; eauto.
    - now apply counts_upd.
  Qed.

  Lemma JC_inv : forall g c tr i e st, JC g c tr -> c i = Idle o ->
    JC g (upd_run o c i (Run o e st P0 false)) (tr ++ [Vis (Inv i e)]).
  Proof.
    intros g c tr i e st [P LK DN RS] C. constructor.
    - intro j. destruct (Nat.eq_dec j i) as [->|NE]; [rewrite upd_same; reflexivity | rewrite upd_other by auto; auto].
    - eapply lock_upd; eauto. left. rewrite C. auto.
    - eapply down_upd; eauto; try (rewrite C; reflexivity). apply dd_vis.
    - rewrite dd_vis, lins_vis. intro M. eapply rest_same; eauto; try (rewrite C; reflexivity).
      destruct (RS M) as (F & _). specialize (F i). rewrite C in F. exact F.
  Qed.

  (** A call takes effect without output. *)
  Lemma opn_grow : forall lh i v, N (lh ++ [(i, Next v)]) = S (N lh) -> completed (N lh) lh = false ->
    length (opn (N (lh ++ [(i, Next v)])) (lh ++ [(i, Next v)])) = S (length (opn (N lh) lh)).
  Proof.
    intros lh i v E C. rewrite E, opn_same.
    - now apply opn_S.
    - intro j. cbn. now rewrite andb_false_r.
  Qed.

  Lemma call_dead : forall (g : gs o D) (c : nat -> run) tr,
    ((exists i e st os t l, c i = Run o e st (PCall os t) l /\ mrun D (g_down g) os = dd tr) \/
     ((forall i, at_call (c i) = false) /\ g_down g = dd tr)) ->
    mdisp D (g_down g) = true -> mdisp D (dd tr) = true.
  Proof.
    intros g c tr [(i & e & st & os & t & l & _ & <-)|[_ <-]] M; auto. now rewrite (mrun_dead B D L).
  Qed.

  Lemma endedb_other : forall j i (e : ev A) h, j <> i -> endedb j (h ++ [(i, e)]) = endedb j h.
  Proof.
    intros j i e h NE. rewrite endedb_app. cbn. apply Nat.eqb_neq in NE. rewrite Nat.eqb_sym, NE. cbn. apply orb_false_r.
  Qed.
  Lemma endedb_this : forall i (e : ev A) h, endedb i h = false -> endedb i (h ++ [(i, e)]) = is_term e.
  Proof. intros i e h E. rewrite endedb_app, E. cbn. now rewrite Nat.eqb_refl, orb_false_r. Qed.

  Lemma lin_move : forall g' c tr i e st k k', c i = Run o e st k false ->
    JC g' (upd_run o c i (Run o e st k' true)) (tr ++ [Lin i e]) ->
    exists c' tr' l', lmove o c c' tr tr' /\ c' i = Run o e st k l' /\ JC g' (upd_run o c' i (Run o e st k' l')) tr'.
  Proof.
    intros g' c tr i e st k k' C J. exists (upd_run o c i (Run o e st k true)), (tr ++ [Lin i e]), true.
    split; [now apply lmove_lin|]. split; [apply upd_same|]. eapply JC_ext; [|exact J].
    intro j. symmetry. apply upd_twice.
  Qed.
  Lemma no_move : forall g' c tr i e st k k' l, c i = Run o e st k l ->
    JC g' (upd_run o c i (Run o e st k' l)) tr ->
    exists c' tr' l', lmove o c c' tr tr' /\ c' i = Run o e st k l' /\ JC g' (upd_run o c' i (Run o e st k' l')) tr'.
  Proof. intros. exists c, tr, l. split; [apply lmove_refl|]. auto. Qed.

  Lemma dead_lin : forall tr i e, mdisp D (dd tr) = true -> dd (tr ++ [Lin i e]) = dd tr.
  Proof. intros. rewrite dd_lin. now apply (mrun_dead B D L). Qed.

  Lemma phase_upd : forall c i r', (forall j, phase j (c j)) -> phase i r' -> forall j, phase j (upd_run o c i r' j).
  Proof.
    intros c i r' P P' j. destruct (Nat.eq_dec j i) as [->|NE]; [now rewrite upd_same | now rewrite upd_other].
  Qed.

  (** A call takes effect before the lock, without output. *)
  Lemma pre_ret : forall g c tr i e st n s', JC g c tr -> c i = Run o e st (PPre n) false ->
    mo_pre o n (g_op g) i e = (s', PRet) ->
    JC (GS (g_lock g) s' (g_own g) (g_down g)) (upd_run o c i (Run o e st PFin true)) (tr ++ [Lin i e]).
  Proof.
    intros g c tr i e st n s' [P LK DN RS] C Q.
    assert (DD : dd (tr ++ [Lin i e]) = dd tr).
    { destruct (mdisp D (dd tr)) eqn:M; [now apply dead_lin|]. destruct (RS eq_refl) as (F & CT & RR).
      specialize (F i). rewrite C in F. cbn in F. destruct F as (F1 & F2 & F3). rewrite dd_lin, F2.
      destruct e as [v|x|].
      - pose proof (pre_next n (g_op g) _ i v RR F3 F2) as H. rewrite Q in H. destruct H as [-> _]. reflexivity.
      - rewrite pre_err in Q. discriminate.
      - destruct (pre_done n (g_op g) i) as (s2 & E & _). rewrite E in Q. destruct (Nat.eqb_spec (cnt (g_op g)) 1) as [|NE]; [discriminate|].
        destruct (out_done (live (lins tr)) i) as [_ ->]. rewrite opn_all.
        pose proof (opn_done A (N (live (lins tr))) _ i F3 (completed_ended _ _ _ F2)) as O.
        destruct CT as [[_ C2]|(k & C1 & _ & _ & C4)].
        + destruct (Nat.eqb_spec (length (opn (N (live (lins tr))) (live (lins tr) ++ [(i, Done)]))) 0); [lia | reflexivity].
        + exfalso. assert (I : In i (opn (N (live (lins tr))) (live (lins tr)))) by (apply opn_in; auto; now apply completed_ended).
          rewrite C4 in I. destruct I as [->|[]]. rewrite C in C1. discriminate. }
    constructor.
    - apply phase_upd; auto. reflexivity.
    - eapply lock_upd; eauto. left. rewrite C. auto.
    - eapply down_upd; eauto; rewrite C; reflexivity.
    - rewrite DD. intro M. destruct (RS M) as (F & CT & RR). pose proof (F i) as Fi. rewrite C in Fi. cbn in Fi.
      destruct Fi as (F1 & F2 & F3). rewrite live_lin, F2. cbn [g_op g_own g_down].
      set (lh := live (lins tr)) in *.
      assert (FO : N lh <= N (lh ++ [(i, e)]) -> forall j, flags (GS (g_lock g) s' (g_own g) (g_down g)) (lh ++ [(i, e)]) j (upd_run o c i (Run o e st PFin true) j)).
      { intros NN j. destruct (Nat.eq_dec j i) as [->|NE].
        - rewrite upd_same. cbn. split; auto. now apply endedb_this.
        - rewrite upd_other by auto. eapply flags_other; eauto. now apply endedb_other. }
      destruct e as [v|x|].
      + pose proof (pre_next n (g_op g) _ i v RR F3 F2) as H. rewrite Q in H. destruct H as (_ & R' & NC).
        split; [|split]; auto.
        * apply FO. destruct NC as [[-> _]|[-> _]]; lia.
        * destruct NC as [[N1 N2]|(N1 & N2 & N3 & N4)].
          -- assert (CT' : counts s' c (lh ++ [(i, Next v)])).
             { assert (O : opn (N (lh ++ [(i, Next v)])) (lh ++ [(i, Next v)]) = opn (N lh) lh).
               { rewrite N1. apply opn_same. intro j. cbn. now rewrite andb_false_r. }
               destruct CT as [[C1 C2]|(k & C1 & C2 & C3 & C4)]; [left | right].
               - split; auto. rewrite O. congruence.
               - exists k. rewrite O. repeat split; auto; congruence. }
             apply counts_upd; auto. rewrite C. reflexivity.
          -- destruct CT as [[C1 C2]|(k & C1 & C2 & C3 & C4)].
             ++ apply counts_upd; [|rewrite C; reflexivity]. left. split; auto. rewrite opn_grow by auto. lia.
             ++ exfalso. assert (I : In i (opn (N lh) lh)) by (apply opn_in; auto; now apply completed_ended).
                rewrite C4 in I. destruct I as [->|[]]. rewrite C in C1. discriminate.
      + rewrite pre_err in Q. discriminate.
      + destruct (pre_done n (g_op g) i) as (s2 & E & E2 & E3). rewrite E in Q.
        destruct (Nat.eqb_spec (cnt (g_op g)) 1) as [|NE]; [discriminate|]. injection Q as <-.
        destruct (out_done lh i) as [ND _]. destruct (E3 _ RR F3) as [_ R'].
        split; [|split]; auto.
        * apply FO. lia.
        * apply counts_upd; [|rewrite C; reflexivity].
          pose proof (opn_done A (N lh) _ i F3 (completed_ended _ _ _ F2)) as O.
          destruct CT as [[C1 C2]|(k & C1 & C2 & C3 & C4)].
          -- left. split; auto. rewrite ND. lia.
          -- exfalso. assert (I : In i (opn (N lh) lh)) by (apply opn_in; auto; now apply completed_ended).
             rewrite C4 in I. destruct I as [->|[]]. rewrite C in C1. discriminate.
  Qed.

  Lemma pre_go : forall g c tr i e st n s', JC g c tr -> c i = Run o e st (PPre n) false ->
    mo_pre o n (g_op g) i e = (s', PGo (post e i)) -> go i e = true ->
    JC (GS (g_lock g) s' (g_own g) (g_down g)) (upd_run o c i (Run o e st (PLock (post e i)) false)) tr.
  Proof.
    intros g c tr i e st n s' [P LK DN RS] C Q GO. constructor.
    - apply phase_upd; auto. cbn. auto.
    - eapply lock_upd; eauto. left. rewrite C. auto.
    - eapply down_upd; eauto; rewrite C; reflexivity.
    - intro M. destruct (RS M) as (F & CT & RR). pose proof (F i) as Fi. rewrite C in Fi. cbn in Fi.
      destruct Fi as (F1 & F2 & F3). cbn [g_op g_own g_down]. set (lh := live (lins tr)) in *.
      assert (FO : forall j, flags (GS (g_lock g) s' (g_own g) (g_down g)) lh j (upd_run o c i (Run o e st (PLock (post e i)) false) j)).
      { intros j. destruct (Nat.eq_dec j i) as [->|NE].
        - rewrite upd_same. cbn. auto.
        - rewrite upd_other by auto. eapply flags_other; eauto. }
      destruct e as [v|x|].
      + pose proof (pre_next n (g_op g) _ i v RR F3 F2) as H. rewrite Q in H. subst s'. split; [|split]; auto.
        apply counts_upd; auto. rewrite C. reflexivity.
      + rewrite pre_err in Q. injection Q as <-. split; [|split]; auto. apply counts_upd; auto. rewrite C. reflexivity.
      + destruct (pre_done n (g_op g) i) as (s2 & E & E2 & E3). rewrite E in Q.
        destruct (Nat.eqb_spec (cnt (g_op g)) 1) as [C1|]; [|discriminate]. injection Q as <-.
        destruct (E3 _ RR F3) as [R' _]. split; [|split]; auto. right. exists i. rewrite upd_same. cbn.
        pose proof (opn_in A (N lh) lh i F3 (completed_ended _ _ _ F2)) as I.
        destruct CT as [[X1 X2]|(k & X1 & X2 & X3 & X4)].
        * split; auto. split; [|split; [lia|]].
          -- intros j Hj. destruct (Nat.eq_dec j i); auto. rewrite upd_other in Hj by auto. congruence.
          -- rewrite C1 in X2. destruct (opn (N lh) lh) as [|a [|b l]]; cbn in X2; try lia.
             destruct I as [->|[]]. reflexivity.
        * congruence.
  Qed.

  Lemma holder : forall (g : gs o D) (c : nat -> run) i,
    ((g_lock g = true /\ exists i, at_lock (c i) = true /\ forall j, at_lock (c j) = true -> j = i) \/
     (g_lock g = false /\ forall j, at_lock (c j) = false)) ->
    at_lock (c i) = true -> g_lock g = true /\ forall j, j <> i -> at_call (c j) = false.
  Proof.
    intros g c i [[H (k & K1 & K2)]|[H K]] A1; [|rewrite K in A1; discriminate].
    split; auto. intros j NE. destruct (at_call (c j)) eqn:Q; auto.
    assert (X : at_lock (c j) = true) by (destruct (c j) as [|? ? k0 ?]; try discriminate; destruct k0; auto; discriminate).
    apply K2 in X. apply K2 in A1. congruence.
  Qed.

  Lemma body_lin : forall g c tr i e st s' os, JC g c tr -> c i = Run o e st (PBody (post e i)) false ->
    go i e = true -> mo_body o (g_op g) (post e i) = (s', os, None) ->
    JC (GS (g_lock g) s' (g_own g) (g_down g)) (upd_run o c i (Run o e st (PCall os None) true)) (tr ++ [Lin i e]).
  Proof.
    intros g c tr i e st s' os [P LK DN RS] C GO Q.
    destruct (holder g c i LK ltac:(rewrite C; reflexivity)) as [HL HC].
    assert (GD : g_down g = dd tr).
    { destruct DN as [(j & e1 & st1 & os1 & t1 & l1 & K1 & K2)|[_ K]]; auto. exfalso.
      destruct (Nat.eq_dec j i) as [->|NE]; [rewrite C in K1; discriminate|].
      specialize (HC j NE). rewrite K1 in HC. discriminate. }
    assert (OUT : mdisp D (dd tr) = false -> endedb i (live (lins tr)) = false /\ os = out (live (lins tr)) i e).
    { intro M. destruct (RS M) as (F & CT & RR). pose proof (F i) as Fi. rewrite C in Fi. cbn in Fi.
      destruct Fi as (F1 & F2 & F3). split; auto. destruct e as [v|x|].
      - destruct (body_next (g_op g) _ i v RR F3 F2 GO) as (_ & s2 & E & _). rewrite E in Q. congruence.
      - rewrite body_err in Q. rewrite out_err. congruence.
      - rewrite body_done in Q. destruct (out_done (live (lins tr)) i) as [_ ->]. rewrite opn_all.
        pose proof (opn_done A (N (live (lins tr))) _ i F3 (completed_ended _ _ _ F2)) as O.
        destruct CT as [[X1 X2]|(k & X1 & X2 & X3 & X4)].
        + specialize (X1 i). rewrite C in X1. discriminate.
        + assert (i = k) by (apply X2; rewrite C; reflexivity). subst k. rewrite X4 in O. cbn in O.
          destruct (length (opn (N (live (lins tr))) (live (lins tr) ++ [(i, Done)]))) eqn:QQ; [|lia].
          cbn. congruence. }
    constructor.
    - apply phase_upd; auto. cbn. auto.
    - eapply lock_upd; eauto. left. rewrite C. auto.
    - left. exists i, e, st, os, None, true. rewrite upd_same. split; auto. cbn. rewrite GD.
      destruct (mdisp D (dd tr)) eqn:M.
      + rewrite dead_lin by auto. now apply (mrun_dead B D L).
      + destruct (OUT eq_refl) as [E ->]. rewrite dd_lin, E. reflexivity.
    - intro M'. pose proof (dd_alive _ _ _ M') as M. destruct (OUT M) as [E2 EO].
      rewrite dd_lin, E2, <- EO in M'.
      destruct (RS M) as (F & CT & RR). pose proof (F i) as Fi. rewrite C in Fi. cbn in Fi.
      destruct Fi as (F1 & F2 & F3). rewrite live_lin, F2. cbn [g_op g_own g_down].
      set (lh := live (lins tr)) in *.
      destruct e as [v|x|].
      + destruct (body_next (g_op g) _ i v RR F3 F2 GO) as (NN & s2 & E & R' & CC). rewrite E in Q.
        injection Q as <- _. split; [|split]; auto.
        * intros j. destruct (Nat.eq_dec j i) as [->|NE].
          -- rewrite upd_same. cbn. split; auto. now apply endedb_this.
          -- rewrite upd_other by auto. eapply flags_other; eauto; [now apply endedb_other | lia].
        * apply counts_upd; [|rewrite C; reflexivity].
          assert (O : opn (N (lh ++ [(i, Next v)])) (lh ++ [(i, Next v)]) = opn (N lh) lh).
          { rewrite NN. apply opn_same. intro j. cbn. now rewrite andb_false_r. }
          destruct CT as [[C1 C2]|(k & C1 & C2 & C3 & C4)]; [left | right].
          -- split; auto. rewrite O. congruence.
          -- exists k. rewrite O. repeat split; auto; congruence.
      + exfalso. rewrite body_err in Q. injection Q as _ <-. rewrite mrun_cons, mrun_nil, (law_term D L) in M'; auto. discriminate.
      + exfalso. rewrite body_done in Q. injection Q as _ <-. rewrite mrun_cons, mrun_nil, (law_term D L) in M'; auto. discriminate.
  Qed.

  Lemma JC_step : forall g c tr i e st k l g' k' n, JC g c tr -> c i = Run o e st k l ->
    pst g i e st k = Some (g', Some k', n) ->
    exists c' tr' l', lmove o c c' tr tr' /\ c' i = Run o e st k l' /\ JC g' (upd_run o c' i (Run o e st k' l')) tr'.
  Proof.
    intros g c tr i e st k l g' k' n J C S. pose proof (j_phase _ _ _ J i) as PH. rewrite C in PH.
    destruct k as [|m|p|p|os t|t|x|]; cbn in S, PH.
    - subst l. destruct (mo_ready o (g_op g) i) eqn:RD; cbn in S; [|discriminate]. rewrite nolock in S. cbn in S.
      destruct (gate o D g i st) eqn:G; [discriminate|]. injection S as <- <- _.
      eapply no_move; eauto. destruct J as [P LK DN RS]. constructor.
      + apply phase_upd; auto. reflexivity.
      + eapply lock_upd; eauto. left. rewrite C. auto.
      + eapply down_upd; eauto; rewrite C; reflexivity.
      + intro M. eapply rest_same; eauto; try (rewrite C; reflexivity). destruct (RS M) as (F & CT & RR).
        specialize (F i). rewrite C in F. cbn in *. unfold gate in G. rewrite own in G. cbn in G.
        apply orb_false_iff in G as [G _]. apply orb_false_iff in G as [G _]. split; auto. split; [congruence|].
        eapply ready; eauto.
    - subst l. destruct (mo_pre o m (g_op g) i e) as [s r] eqn:Q.
      destruct (pre_shape m (g_op g) i e) as [(s2 & E)|(s2 & E & GO)]; rewrite E in Q; injection Q as <- <-;
        injection S as <- <- _.
      + eapply lin_move; eauto. eapply pre_ret; eauto.
      + eapply no_move; eauto. eapply pre_go; eauto.
    - destruct PH as (-> & -> & GO). destruct (g_lock g) eqn:LQ; [discriminate|]. injection S as <- <- _.
      eapply no_move; eauto. destruct J as [P LK DN RS]. constructor.
      + apply phase_upd; auto. cbn. auto.
      + eapply lock_upd; eauto.
      + eapply down_upd; eauto; rewrite C; reflexivity.
      + intro M. eapply rest_same; eauto; try (rewrite C; reflexivity). destruct (RS M) as (F & CT & RR).
        specialize (F i). rewrite C in F. exact F.
    - destruct PH as (-> & -> & GO). destruct (mo_body o (g_op g) (post e i)) as [[s os] t] eqn:Q.
      pose proof (body_shape (g_op g) (post e i)) as T. rewrite Q in T. cbn in T. subst t. injection S as <- <- _.
      eapply lin_move; eauto. eapply body_lin; eauto.
    - destruct PH as [-> ->]. injection S as <- <- _. eapply no_move; eauto. destruct J as [P LK DN RS].
      destruct (holder g c i LK ltac:(rewrite C; reflexivity)) as [HL HC].
      assert (GD : mrun D (g_down g) os = dd tr).
      { destruct DN as [(j & e1 & st1 & os1 & t1 & l1 & K1 & K2)|[K _]].
        - destruct (Nat.eq_dec j i) as [->|NE]; [rewrite C in K1; injection K1 as <- <- <- <- <-; auto|].
          specialize (HC j NE). rewrite K1 in HC. discriminate.
        - specialize (K i). rewrite C in K. discriminate. }
      constructor.
      + apply phase_upd; auto. cbn. auto.
      + eapply lock_upd; eauto. left. rewrite C. auto.
      + right. cbn. split; auto. intro j. destruct (Nat.eq_dec j i) as [->|NE]; [now rewrite upd_same | rewrite upd_other; auto].
      + intro M. eapply rest_same; eauto; try (rewrite C; reflexivity). destruct (RS M) as (F & CT & RR).
        specialize (F i). rewrite C in F. exact F.
    - destruct PH as [-> ->]. injection S as <- <- _. eapply no_move; eauto. destruct J as [P LK DN RS]. constructor.
      + apply phase_upd; auto. reflexivity.
      + eapply lock_upd; eauto. right. right. rewrite C. auto.
      + eapply down_upd; eauto; rewrite C; reflexivity.
      + intro M. eapply rest_same; eauto; try (rewrite C; reflexivity). destruct (RS M) as (F & CT & RR).
        specialize (F i). rewrite C in F. exact F.
    - destruct PH.
    - discriminate.
  Qed.

  Lemma JC_ret : forall g c tr i e st k l g' n, JC g c tr -> c i = Run o e st k l ->
    pst g i e st k = Some (g', None, n) ->
    exists c' tr', lmove o c c' tr tr' /\ c' i = Run o e st k true /\ JC g' (upd_run o c' i (Idle o)) (tr' ++ [Vis (Ret i e)]).
  Proof.
    intros g c tr i e st k l g' n J C S. pose proof (j_phase _ _ _ J i) as PH. rewrite C in PH.
    destruct k as [|m|p|p|os t|t|x|]; cbn in S, PH.
    - subst l. destruct (mo_ready o (g_op g) i) eqn:RD; cbn in S; [|discriminate]. rewrite nolock in S. cbn in S.
      destruct (gate o D g i st) eqn:G; [|discriminate]. injection S as <- _.
      exists (upd_run o c i (Run o e st P0 true)), (tr ++ [Lin i e]). split; [now apply lmove_lin|]. split; [apply upd_same|].
      eapply JC_ext; [intro j; symmetry; apply upd_twice|]. destruct J as [P LK DN RS].
      assert (DD : dd (tr ++ [Lin i e]) = dd tr /\ (mdisp D (dd tr) = false -> endedb i (live (lins tr)) = true)).
      { destruct (mdisp D (dd tr)) eqn:M; [split; [now apply dead_lin | discriminate]|].
        destruct (RS eq_refl) as (F & CT & RR). specialize (F i). rewrite C in F. cbn in F.
        unfold gate in G. rewrite own, nogate in G. cbn in G. rewrite orb_false_r in G.
        destruct (owned o D g i); [|cbn in G; apply andb_prop in G as [G _]; apply (call_dead g c tr DN) in G; congruence].
        rewrite dd_lin, <- F. auto. }
      destruct DD as [DD EN]. constructor.
      + apply phase_upd; auto. exact I.
      + eapply lock_upd; eauto. left. rewrite C. auto.
      + eapply down_upd; eauto; try (rewrite C; reflexivity). rewrite dd_vis. auto.
      + rewrite dd_vis, lins_vis, DD, live_lin. intro M. rewrite (EN M), app_nil_r.
        eapply rest_same; eauto; try (rewrite C; reflexivity). destruct (RS M) as (F & CT & RR).
        specialize (F i). rewrite C in F. exact F.
    - destruct (mo_pre o m (g_op g) i e) as [s [| | |]]; discriminate.
    - destruct (g_lock g); discriminate.
    - destruct (mo_body o (g_op g) p) as [[? ?] ?]. discriminate.
    - discriminate.
    - discriminate.
    - destruct PH.
    - subst l. injection S as <- _. exists c, tr. split; [apply lmove_refl|]. split; auto.
      destruct J as [P LK DN RS]. constructor.
      + apply phase_upd; auto. exact I.
      + eapply lock_upd; eauto. left. rewrite C. auto.
      + eapply down_upd; eauto; try (rewrite C; reflexivity). apply dd_vis.
      + rewrite dd_vis, lins_vis. intro M. destruct (RS M) as (F & CT & RR). cbn [g_op]. split; [|split]; auto.
        * intro j. destruct (Nat.eq_dec j i) as [->|NE].
          -- rewrite upd_same. cbn. specialize (F i). rewrite C in F. cbn in F. destruct F as [F1 F2]. rewrite F2.
             destruct (is_term e); auto. unfold owned. cbn. now rewrite Nat.eqb_refl.
          -- rewrite upd_other by auto. eapply flags_other; eauto. destruct (is_term e); auto. unfold owned. cbn.
             apply Nat.eqb_neq in NE. now rewrite NE.
        * apply counts_upd; auto. rewrite C. reflexivity.
  Qed.

  Lemma JC_init : JC (g_init o D d0) (fun _ => Idle o) [].
  Proof.
    constructor; cbn; auto. intros _. split; [|split]; auto. left. split; auto.
    unfold opn. rewrite cnt_init. cbn. clear. induction (N []) as [|n IH]; auto.
    rewrite seq_S, filter_app, app_length, <- IH. cbn. lia.
  Qed.

  Theorem counting_linearizable : forall progs tr c,
    gexec (istep o D (fun _ => [])) (g_init o D d0, threads o progs) tr c ->
    exists h, linearized (map (map fst) progs) tr h /\
      (g_lock (fst c) = false -> g_down (fst c) = mrun D d0 (outs out h)) /\
      (gfinished c -> g_lock (fst c) = false).
  Proof.
    intros progs tr c X.
    destruct (lin_generic o D progs JC JC_inv JC_step JC_ret d0 JC_init tr c X) as (cu & tr' & E & J & PR & FN).
    exists (lins tr'). destruct J as [P LK DN RS]. split; [|split].
    - exists tr'. repeat split; auto. intro i. change (@nil (ev A)) with (map (@fst (ev A) bool) []). rewrite map_nth. auto.
    - intro LF. destruct LK as [[H _]|[_ LK]]; [congruence|].
      destruct DN as [(i & e & st & os & t & l & K1 & _)|[_ DN]]; [|exact DN].
      specialize (LK i). rewrite K1 in LK. discriminate.
    - intro F. destruct LK as [[H (i & K & _)]|[H _]]; auto. destruct (FN F i) as [FI _]. rewrite FI in K. discriminate.
  Qed.
End Count.
