(** Subjects, one thread. *)
From Verif Require Import Base Machine MachineProofs SubjSpec SubjModel.

Section SubjP.
  Context {V : Type} (D : machine V) (L : lawful D).
  Notation subj := (subj D).

  Definition st_of (f : fin V) (s : sstate) : Prop :=
    match f, s with
    | Open, SObs _ | Ended Done, SDone | Dropped, SDisp => True
    | Ended (Err x), SErr y => x = y
    | _, _ => False
    end.
  Definition obs_of (g : subj) : list nat := match s_st D g with SObs p => content D g p | _ => [] end.
  (** [on i]: observer i has been put into the list once. *)
  Record Inv (f : fin V) (on : nat -> bool) (g : subj) : Prop := {
    i_st : st_of f (s_st D g);
    i_flag : s_flag D g = match f with Open => false | _ => true end;
    i_ptr : match s_st D g with SObs (Some p) => p < length (s_heap D g) | _ => True end;
    i_nd : NoDup (obs_of g);
    i_on : forall i, In i (obs_of g) -> on i = true;
    i_in : f = Open -> forall i, on i = true -> mdisp D (s_sub D g i) = false -> In i (obs_of g)
  }.

  Lemma nth_alloc : forall (h : list (list nat)) l, nth (length h) (h ++ [l]) [] = l.
  Proof. intros. rewrite app_nth2, Nat.sub_diag by lia. reflexivity. Qed.
  Lemma deque_alloc : forall g l p, p < length (s_heap D g) -> deque D (alloc D g l) p = deque D g p.
  Proof. intros g l p H. unfold deque, alloc. cbn. now apply app_nth1. Qed.
  Lemma obs_alloc : forall g l, obs_of (alloc D g l) = l.
  Proof. intros g l. unfold obs_of, alloc. cbn. unfold deque. cbn. apply nth_alloc. Qed.

  (** ** cleanup *)
  Lemma cleanup_sub : forall g i j, s_sub D (cleanup D g i) j = s_sub D g j.
  Proof. intros. unfold cleanup. destruct (s_st D g); reflexivity. Qed.
  Lemma cleanup_flag : forall g i, s_flag D (cleanup D g i) = s_flag D g.
  Proof. intros. unfold cleanup. destruct (s_st D g); reflexivity. Qed.
  Lemma cleanup_obs : forall g i, obs_of (cleanup D g i) = filter (fun j => negb (j =? i) && negb (mdisp D (s_sub D g j))) (obs_of g).
  Proof. intros. unfold cleanup. destruct (s_st D g) eqn:E; [rewrite obs_alloc; unfold obs_of; now rewrite E| | |]; unfold obs_of; rewrite E; reflexivity. Qed.
  Lemma cleanup_heap : forall g i p, p < length (s_heap D g) -> p < length (s_heap D (cleanup D g i)) /\ deque D (cleanup D g i) p = deque D g p.
  Proof.
    intros g i p H. unfold cleanup. destruct (s_st D g); auto. split; [|now apply deque_alloc]. unfold alloc. cbn. rewrite app_length. lia.
  Qed.
  Lemma cleanup_inv : forall f on g i, Inv f on g -> mdisp D (s_sub D g i) = true -> Inv f on (cleanup D g i).
  Proof.
    intros f on g i [I1 I2 I3 I4 I5 I6] DE. constructor.
    - unfold cleanup. destruct (s_st D g) eqn:E; rewrite ?E; auto.
    - now rewrite cleanup_flag.
    - unfold cleanup. destruct (s_st D g) eqn:E; rewrite ?E; auto. cbn. rewrite app_length. cbn. lia.
    - rewrite cleanup_obs. now apply NoDup_filter.
    - intros j H. rewrite cleanup_obs in H. apply filter_In in H as [H _]. auto.
    - intros F j O A. rewrite cleanup_sub in A. rewrite cleanup_obs. apply filter_In. split; auto.
      rewrite A. cbn. rewrite andb_true_r. apply negb_true_iff, Nat.eqb_neq. intros ->. congruence.
  Qed.

  (** ** Observers change *)
  Lemma set_inv : forall f on g i d, Inv f on g -> (mdisp D d = false -> mdisp D (s_sub D g i) = false) -> Inv f on (set_sub D g i d).
  Proof.
    intros f on g i d [I1 I2 I3 I4 I5 I6] H. constructor; auto.
    intros F j O A. apply I6; auto. unfold set_sub in A. cbn in A. destruct (Nat.eqb_spec j i) as [->|]; auto.
  Qed.
  Lemma mono_step : forall d e, mdisp D (mstep D d e) = false -> mdisp D d = false.
  Proof. intros d e H. destruct (mdisp D d) eqn:E; auto. rewrite (law_dead _ L) in H by auto. congruence. Qed.
  Lemma mono_kill : forall d, mdisp D (mkill D d) = false -> mdisp D d = false.
  Proof. intros d H. rewrite (law_kill _ L) in H. discriminate. Qed.

  Lemma notify_sub : forall g i e j, s_sub D (notify D g i e) j = if j =? i then mstep D (s_sub D g i) e else s_sub D g j.
  Proof. intros. unfold notify. destruct (_ && _); rewrite ?cleanup_sub; reflexivity. Qed.
  Lemma notify_inv : forall f on g i e, Inv f on g -> Inv f on (notify D g i e).
  Proof.
    intros f on g i e I. unfold notify. destruct (_ && _) eqn:X.
    - apply andb_true_iff in X as [X _]. apply cleanup_inv; [apply set_inv; auto; apply mono_step|]. cbn. now rewrite Nat.eqb_refl.
    - apply set_inv; auto. apply mono_step.
  Qed.
  Lemma notify_heap : forall g i e p, p < length (s_heap D g) -> p < length (s_heap D (notify D g i e)) /\ deque D (notify D g i e) p = deque D g p.
  Proof. intros g i e p H. unfold notify. destruct (_ && _); auto. now apply (cleanup_heap (set_sub D g i (mstep D (s_sub D g i) e))). Qed.

  Lemma unsub_sub : forall g i j, s_sub D (unsubscribe D g i) j = if j =? i then mkill D (s_sub D g i) else s_sub D g j.
  Proof. intros. unfold unsubscribe. rewrite cleanup_sub. reflexivity. Qed.
  Lemma unsub_inv : forall f on g i, Inv f on g -> Inv f on (unsubscribe D g i).
  Proof.
    intros f on g i I. unfold unsubscribe. apply cleanup_inv; [apply set_inv; auto; apply mono_kill|]. cbn. rewrite Nat.eqb_refl. apply (law_kill _ L).
  Qed.
  Lemma unsub_heap : forall g i p, p < length (s_heap D g) -> p < length (s_heap D (unsubscribe D g i)) /\ deque D (unsubscribe D g i) p = deque D g p.
  Proof. intros g i p H. unfold unsubscribe. now apply (cleanup_heap (set_sub D g i (mkill D (s_sub D g i)))). Qed.

  (** ** Disposal *)
  Definition drop (f : fin V) : fin V := match f with Open => Dropped | _ => f end.
  Lemma dispose_sub : forall g j, s_sub D (dispose D g) j = s_sub D g j.
  Proof. intros. unfold dispose, exchange. destruct (s_st D g); reflexivity. Qed.
  Lemma dispose_inv : forall f on g, Inv f on g -> Inv (drop f) on (dispose D g).
  Proof.
    intros f on g [I1 I2 I3 I4 I5 I6].
    assert (EX : match s_st D g with SObs _ => exchange D g SDisp = set_st D g SDisp | _ => exchange D g SDisp = g end) by (unfold exchange; destruct (s_st D g); auto).
    destruct (s_st D g) as [p|x| |] eqn:E; unfold dispose; rewrite EX; destruct f as [|[v|y|]|]; cbn in *; try contradiction; constructor; unfold obs_of in *; cbn in *; rewrite ?E; cbn; auto; try discriminate; try constructor; try (intros ? []).
  Qed.
  Lemma dispose_heap : forall g, s_heap D (dispose D g) = s_heap D g.
  Proof. intros. unfold dispose, exchange. destruct (s_st D g); reflexivity. Qed.

  (** ** Subscription *)
  Lemma push_length : forall h p i, length (push h p i) = length h.
  Proof. induction h as [|l h IH]; intros [|p] i; cbn; auto. Qed.
  Lemma push_nth : forall h p i, p < length h -> nth p (push h p i) [] = nth p h [] ++ [i].
  Proof. induction h as [|l h IH]; intros [|p] i H; cbn in *; try lia; auto. apply IH. lia. Qed.

  Definition turn_on (on : nat -> bool) (i : nat) : nat -> bool := fun j => if j =? i then true else on j.
  Lemma subscribe_open : forall on g i, Inv Open on g -> on i = false ->
    Inv Open (turn_on on i) (on_subscribe D g i) /\ forall j, s_sub D (on_subscribe D g i) j = s_sub D g j.
  Proof.
    intros on g i [I1 I2 I3 I4 I5 I6] ON. unfold on_subscribe. destruct (s_st D g) as [p|x| |] eqn:E; try contradiction.
    set (g1 := match p with None => alloc D g [i] | Some a => SJ D (SObs p) (push (s_heap D g) a i) (s_flag D g) (s_sub D g) end).
    assert (G : Inv Open (turn_on on i) g1 /\ forall j, s_sub D g1 j = s_sub D g j).
    { assert (OB : obs_of g1 = obs_of g ++ [i]).
      { unfold g1. destruct p as [a|].
        - unfold obs_of. cbn. rewrite E. cbn. unfold deque. cbn. now apply push_nth.
        - rewrite obs_alloc. unfold obs_of. now rewrite E. }
      split; [|intro j; unfold g1; destruct p; reflexivity].
      assert (SB : forall j, s_sub D g1 j = s_sub D g j) by (intro j; unfold g1; destruct p; reflexivity).
      constructor.
      - unfold g1. destruct p; exact I.
      - unfold g1. destruct p; exact I2.
      - unfold g1. destruct p as [a|]; cbn; [rewrite push_length; auto|]. rewrite app_length. cbn. lia.
      - rewrite OB. assert (N : ~ In i (obs_of g)) by (intro X; apply I5 in X; congruence).
        clear - I4 N. induction (obs_of g) as [|x l IH]; cbn; [constructor; [auto | constructor]|].
        inversion I4 as [|? ? N1 N2]; subst. constructor; [|apply IH; auto; intro; apply N; now right].
        intro X. apply in_app_or in X as [X|[->|[]]]; auto. apply N. now left.
      - intros j X. rewrite OB in X. unfold turn_on. destruct (Nat.eqb_spec j i); auto. apply in_app_or in X as [X|[X|[]]]; auto.
      - intros _ j X A. rewrite OB. apply in_or_app. unfold turn_on in X. rewrite SB in A. destruct (Nat.eqb_spec j i) as [EQ|]; [right; left; congruence | left; auto]. }
    destruct G as [G1 G2]. destruct (mdisp D (s_sub D g1 i)) eqn:DE; [|auto]. split; [now apply cleanup_inv|]. intro j. rewrite cleanup_sub. apply G2.
  Qed.
  Lemma subscribe_over : forall f on g i, Inv f on g -> f <> Open ->
    Inv f on (on_subscribe D g i) /\ forall j, s_sub D (on_subscribe D g i) j =
      if j =? i then match f with Ended e => mstep D (s_sub D g i) e | _ => s_sub D g j end else s_sub D g j.
  Proof.
    intros f on g i I NO. pose proof (i_st _ _ _ I) as I1. unfold on_subscribe.
    destruct (s_st D g) as [p|x| |] eqn:E; destruct f as [|[v|y|]|]; try contradiction; try congruence.
    - cbn in I1. subst y. split; [apply set_inv; auto; apply mono_step | reflexivity].
    - split; [apply set_inv; auto; apply mono_step | reflexivity].
    - split; auto. intro j. destruct (j =? i); reflexivity.
  Qed.

  (** ** Values *)
  Variable react : nat -> V -> list act.
  Definition quiet : Prop := forall i v, Forall (fun a => match a with ASub _ => False | _ => True end) (react i v).
  Definition disposes : Prop := exists i v, In ADispose (react i v).

  (** What an emission does to the observers. *)
  Definition act_sub (st : nat -> mst D) (a : act) : nat -> mst D :=
    match a with AUnsub i => fun j => if j =? i then mkill D (st i) else st j | _ => st end.
  Fixpoint emit_all (v : V) (ids : list nat) (st : nat -> mst D) : nat -> mst D :=
    match ids with
    | [] => st
    | i :: r =>
        let st1 := fun j => if j =? i then mstep D (st i) (Next v) else st j in
        emit_all v r (if mdisp D (st i) then st1 else fold_left act_sub (react i v) st1)
    end.
  Lemma act_sub_ext : forall l st st', (forall j, st j = st' j) -> forall j, fold_left act_sub l st j = fold_left act_sub l st' j.
  Proof.
    induction l as [|a l IH]; intros st st' H j; cbn; auto. apply IH. intro k. destruct a as [i|i|]; cbn; auto. rewrite H. destruct (k =? i); auto.
  Qed.
  Lemma emit_all_ext : forall v ids st st', (forall j, st j = st' j) -> forall j, emit_all v ids st j = emit_all v ids st' j.
  Proof.
    induction ids as [|i r IH]; intros st st' H j; cbn; auto. rewrite H. apply IH. intro k.
    destruct (mdisp D (st' i)); [|apply act_sub_ext; intro m]; destruct (_ =? i); auto.
  Qed.

  Lemma acts_quiet : forall l g f on p, Forall (fun a => match a with ASub _ => False | _ => True end) l ->
    Inv f on g -> p < length (s_heap D g) ->
    let g' := fold_left (do_act D) l g in
    (exists f', Inv f' on g' /\ (f' = f \/ f' = drop f /\ In ADispose l)) /\ p < length (s_heap D g') /\ deque D g' p = deque D g p /\
    forall j, s_sub D g' j = fold_left act_sub l (s_sub D g) j.
  Proof.
    induction l as [|a l IH]; intros g f on p F I P; cbn [fold_left].
    - cbn. split; [exists f; auto | auto].
    - inversion F as [|? ? Fa Fl]; subst. destruct a as [i|i|]; [contradiction| |]; cbn [do_act act_sub].
      + destruct (unsub_heap g i p P) as [P1 P2]. destruct (IH _ f on p Fl (unsub_inv _ _ _ i I) P1) as ((f' & J1 & J2) & H2 & H3 & H4).
        split; [exists f'; split; auto; destruct J2 as [->|[-> ?]]; auto; right; split; auto; now right|]. split; auto. split; [congruence|].
        intro j. rewrite H4. apply act_sub_ext. intro k. apply unsub_sub.
      + assert (P1 : p < length (s_heap D (dispose D g))) by now rewrite dispose_heap.
        destruct (IH _ _ on p Fl (dispose_inv _ _ _ I) P1) as ((f' & J1 & J2) & H2 & H3 & H4).
        split; [exists f'; split; auto; right; split; [destruct J2 as [->|[-> ?]]; auto; destruct f; auto | now left]|]. split; auto.
        split; [rewrite H3; unfold deque; now rewrite dispose_heap|]. intro j. rewrite H4. apply act_sub_ext. intro k. apply dispose_sub.
  Qed.

  Lemma deliver_quiet : quiet -> forall v ids g f on p len, Inv f on g -> p < length (s_heap D g) -> length (deque D g p) = len ->
    exists g', deliver D react v p len ids g = Some g' /\ (exists f', Inv f' on g' /\ (f' = f \/ f' = drop f /\ disposes)) /\
      forall j, s_sub D g' j = emit_all v ids (s_sub D g) j.
  Proof.
    intros Q v. induction ids as [|i r IH]; intros g f on p len I P LN; cbn [deliver emit_all].
    - exists g. split; auto. split; auto. exists f. auto.
    - destruct (notify_heap g i (Next v) p P) as [P1 P2]. pose proof (notify_inv _ _ _ i (Next v) I) as I1.
      assert (X : let g2 := if mdisp D (s_sub D g i) then notify D g i (Next v) else fold_left (do_act D) (react i v) (notify D g i (Next v)) in
        (exists f', Inv f' on g2 /\ (f' = f \/ f' = drop f /\ disposes)) /\ p < length (s_heap D g2) /\ deque D g2 p = deque D g p /\
        forall j, s_sub D g2 j = (if mdisp D (s_sub D g i) then (fun j => if j =? i then mstep D (s_sub D g i) (Next v) else s_sub D g j)
                                  else fold_left act_sub (react i v) (fun j => if j =? i then mstep D (s_sub D g i) (Next v) else s_sub D g j)) j).
      { destruct (mdisp D (s_sub D g i)).
        - split; [exists f; auto|]. split; auto. split; auto. intro j. apply notify_sub.
        - destruct (acts_quiet (react i v) _ f on p (Q i v) I1 P1) as ((f' & J1 & J2) & H2 & H3 & H4).
          split; [exists f'; split; auto; destruct J2 as [->|[-> ?]]; auto; right; split; auto; exists i, v; auto|]. split; auto. split; [congruence|].
          intro j. rewrite H4. apply act_sub_ext. intro k. apply notify_sub. }
      cbv zeta in X. set (g2 := if mdisp D (s_sub D g i) then _ else _) in *. destruct X as ((f' & J1 & J2) & H2 & H3 & H4).
      rewrite H3, LN, Nat.eqb_refl. destruct (IH g2 f' on p len J1 H2 ltac:(congruence)) as (g' & R & (f'' & K1 & K2) & S).
      exists g'. split; auto. split.
      + exists f''. split; auto. destruct J2 as [->|[-> ?]], K2 as [->|[-> ?]]; auto; right; split; auto; destruct f; auto.
      + intro j. rewrite S. apply emit_all_ext. exact H4.
  Qed.

  Theorem next_quiet : quiet -> forall v g on, Inv Open on g ->
    exists g', on_next D react g v = Some g' /\ (exists f', Inv f' on g' /\ (f' = Open \/ f' = Dropped /\ disposes)) /\
      forall j, s_sub D g' j = emit_all v (obs_of g) (s_sub D g) j.
  Proof.
    intros Q v g on I. unfold on_next, obs_of. pose proof (i_st _ _ _ I) as I1. pose proof (i_ptr _ _ _ I) as I3.
    destruct (s_st D g) as [[p|]|x| |] eqn:E; try contradiction.
    - destruct (deliver_quiet Q v (deque D g p) g Open on p _ I I3 eq_refl) as (g' & R & J & S). exists g'. cbn [content]. auto.
    - exists g. split; auto. split; auto. exists Open. auto.
  Qed.

  Lemma emit_all_dead : forall v ids st j, mdisp D (st j) = true -> mdisp D (emit_all v ids st j) = true.
  Proof.
    intros v. induction ids as [|i r IH]; intros st j DE; cbn; auto. apply IH.
    assert (X : mdisp D (if j =? i then mstep D (st i) (Next v) else st j) = true).
    { destruct (Nat.eqb_spec j i) as [EQ|]; auto. rewrite <- EQ, (law_dead _ L); auto. }
    destruct (mdisp D (st i)); auto.
    assert (Y : forall l st1, mdisp D (st1 j) = true -> mdisp D (fold_left act_sub l st1 j) = true).
    { clear - L. induction l as [|a l IH]; intros st1 H; cbn; auto. apply IH. destruct a as [k|k|]; cbn; auto.
      destruct (Nat.eqb_spec j k); auto. apply (law_kill _ L). }
    now apply Y.
  Qed.

  (** ** Terminal events *)
  Lemma term_fold : forall e f on ids g, NoDup ids -> Inv f on g -> f <> Open ->
    let g' := fold_left (fun g i => notify D g i e) ids g in
    Inv f on g' /\ forall j, s_sub D g' j = if existsb (Nat.eqb j) ids then mstep D (s_sub D g j) e else s_sub D g j.
  Proof.
    intros e f on. induction ids as [|i r IH]; intros g N I F; cbn [fold_left existsb]; [split; auto|].
    inversion N as [|? ? N1 N2]; subst. destruct (IH _ N2 (notify_inv _ _ _ i e I) F) as [J S]. split; auto.
    intro j. rewrite S, notify_sub. destruct (Nat.eqb_spec j i) as [->|NE]; cbn; auto.
    destruct (existsb (Nat.eqb i) r) eqn:X; auto. apply existsb_exists in X as (y & Y1 & Y2). apply Nat.eqb_eq in Y2. subst y. contradiction.
  Qed.
  Lemma on_in : forall on g i, Inv Open on g -> mdisp D (s_sub D g i) = false -> existsb (Nat.eqb i) (obs_of g) = on i.
  Proof.
    intros on g i I A. destruct (on i) eqn:O.
    - apply existsb_exists. exists i. split; [now apply (i_in _ _ _ I) | apply Nat.eqb_refl].
    - destruct (existsb (Nat.eqb i) (obs_of g)) eqn:X; auto. apply existsb_exists in X as (y & Y1 & Y2). apply Nat.eqb_eq in Y2. subst y.
      apply (i_on _ _ _ I) in Y1. congruence.
  Qed.
  Lemma on_step : forall on g i e, Inv Open on g ->
    (if existsb (Nat.eqb i) (obs_of g) then mstep D (s_sub D g i) e else s_sub D g i) = (if on i then mstep D (s_sub D g i) e else s_sub D g i).
  Proof.
    intros on g i e I. destruct (mdisp D (s_sub D g i)) eqn:A; [|now rewrite (on_in _ _ _ I A)].
    rewrite (law_dead _ L) by auto. destruct (on i), (existsb _ _); reflexivity.
  Qed.
  Definition st_term (e : ev V) : sstate := match e with Err x => SErr x | _ => SDone end.
  Lemma term_open : forall on g e, is_term e = true -> Inv Open on g ->
    Inv (Ended e) on (on_term D g (st_term e) e) /\
    forall j, s_sub D (on_term D g (st_term e) e) j = if on j then mstep D (s_sub D g j) e else s_sub D g j.
  Proof.
    intros on g e T I. unfold on_term. pose proof I as [I1 I2 I3 I4 I5 I6]. destruct (s_st D g) as [p|x| |] eqn:E; try contradiction.
    set (g1 := set_st D g (st_term e)).
    assert (EQ : content D g p = obs_of g) by (unfold obs_of; now rewrite E). rewrite EQ.
    assert (G : forall ids g0, NoDup ids -> st_of (Ended e) (s_st D g0) -> obs_of g0 = [] ->
       let g' := fold_left (fun g i => notify D g i e) ids g0 in
       s_st D g' = s_st D g0 /\ forall j, s_sub D g' j = if existsb (Nat.eqb j) ids then mstep D (s_sub D g0 j) e else s_sub D g0 j).
    { clear - L T. induction ids as [|i r IH]; intros g0 N S O; cbn [fold_left existsb]; [split; auto|].
      inversion N as [|? ? N1 N2]; subst.
      assert (ST : s_st D (notify D g0 i e) = s_st D g0).
      { unfold notify, cleanup. destruct (_ && _); auto. cbn. destruct (s_st D g0) eqn:Q; cbn in *; auto. destruct e; discriminate || contradiction. }
      assert (ON : obs_of (notify D g0 i e) = []).
      { unfold obs_of. rewrite ST. destruct (s_st D g0) eqn:Q; auto. cbn in S. destruct e; discriminate || contradiction. }
      destruct (IH (notify D g0 i e) N2 ltac:(now rewrite ST) ON) as [J S2]. split; [now rewrite J|].
      intro j. rewrite S2, notify_sub. destruct (Nat.eqb_spec j i) as [->|NE]; cbn; auto.
      destruct (existsb (Nat.eqb i) r) eqn:X; auto. apply existsb_exists in X as (y & Y1 & Y2). apply Nat.eqb_eq in Y2. subst y. contradiction. }
    assert (S1 : st_of (Ended e) (s_st D g1)) by (unfold g1; destruct e as [v|x|]; cbn; auto; discriminate).
    assert (O1 : obs_of g1 = []) by (unfold g1, obs_of; destruct e as [v|x|]; cbn; auto).
    assert (NOB : forall q, s_st D g1 <> SObs q) by (intros q Q; unfold g1 in Q; destruct e as [v|x|]; discriminate).
    destruct (G (obs_of g) g1 I4 S1 O1) as [ST SS]. set (g2 := fold_left _ _ g1) in *. split.
    - assert (EX : exchange D g2 SDisp = g2) by (unfold exchange; rewrite ST; destruct (s_st D g1) eqn:Q; auto; destruct e as [v|x|]; cbn in S1; try contradiction; discriminate).
      constructor; unfold obs_of, dispose; rewrite EX; cbn; rewrite ?ST; auto.
      + destruct (s_st D g1) eqn:Q; auto. exfalso. eapply NOB. reflexivity.
      + destruct (s_st D g1) eqn:Q; try constructor. exfalso. eapply NOB. reflexivity.
      + intros i H. destruct (s_st D g1) eqn:Q; try destruct H. exfalso. eapply NOB. reflexivity.
      + discriminate.
    - intro j. rewrite dispose_sub, SS. exact (on_step on g j e I).
  Qed.
End SubjP.

(** ** Histories *)
Section Hist.
  Context {V : Type} (D : machine V) (L : lawful D).
  Definition none : nat -> V -> list act := fun _ _ => [].
  Lemma none_quiet : quiet none.
  Proof. intros i v. constructor. Qed.
  Lemma none_disposes : ~ disposes none.
  Proof. intros (i & v & []). Qed.
  Lemma emit_all_none : forall v ids st j, NoDup ids ->
    emit_all D none v ids st j = if existsb (Nat.eqb j) ids then mstep D (st j) (Next v) else st j.
  Proof.
    intros v. induction ids as [|i r IH]; intros st j N; cbn [emit_all existsb]; auto. inversion N as [|? ? N1 N2]; subst. cbn [none fold_left].
    replace (if mdisp D (st i) then _ else _) with (fun j => if j =? i then mstep D (st i) (Next v) else st j) by (destruct (mdisp D (st i)); reflexivity).
    rewrite IH by auto. destruct (Nat.eqb_spec j i) as [->|NE]; cbn; auto.
    destruct (existsb (Nat.eqb i) r) eqn:X; auto. apply existsb_exists in X as (y & Y1 & Y2). apply Nat.eqb_eq in Y2. subst y. contradiction.
  Qed.

  (** An event for an open subject. *)
  Lemma emit_open : forall on g e, Inv D Open on g -> exists g', emit D none g e = Some g' /\
    Inv D (if is_term e then Ended e else Open) on g' /\
    forall j, s_sub D g' j = if on j then mstep D (s_sub D g j) e else s_sub D g j.
  Proof.
    intros on g e I. unfold emit. rewrite (i_flag _ _ _ _ I). destruct e as [v|x|]; cbn [is_term].
    - destruct (next_quiet D L none none_quiet v g on I) as (g' & R & (f' & J & K) & S). exists g'. split; auto. split.
      + destruct K as [->|[_ K]]; auto. destruct (none_disposes K).
      + intro j. rewrite S, emit_all_none by apply (i_nd _ _ _ _ I). now apply (on_step D L on g j (Next v)).
    - destruct (term_open D L on g (Err x) eq_refl I). eauto.
    - destruct (term_open D L on g Done eq_refl I). eauto.
  Qed.
  Lemma emit_over : forall f on g e, Inv D f on g -> f <> Open -> emit D none g e = Some g.
  Proof. intros f on g e I F. unfold emit. rewrite (i_flag _ _ _ _ I). destruct f; congruence. Qed.

  Lemma received_over : forall S (upd : S -> V -> S) first i b1 b2 f s h, f <> Open ->
    received_from upd first i b1 f s h = received_from upd first i b2 f s h.
  Proof.
    intros S upd first i b1 b2 f s h F. revert b1 b2 s. induction h as [|o h IH]; intros b1 b2 s; cbn; auto.
    destruct o as [j|j|e|]; destruct f; try congruence; cbn; try (destruct (j =? i)); auto.
  Qed.

  Definition final (i : nat) (h : list (sop V)) (d : mst D) : mst D := if unsubbed i h then mkill D d else d.
  Lemma final_dead : forall i h d, mdisp D d = true -> final i h d = d.
  Proof. intros i h d H. unfold final. destruct (unsubbed i h); auto. now apply (law_kill_dead _ L). Qed.
  Lemma mrun1 : forall d e l, mrun D (mstep D d e) l = mrun D d (e :: l).
  Proof. reflexivity. Qed.

  (** One call of any history; [keep]: the part of the specification that remembers values. *)
  Lemma hist_step : forall o on f g, Inv D f on g -> match o with OSub i => on i = false | _ => True end ->
    exists g' on' f', sop_step D none g o = Some g' /\ Inv D f' on' g' /\
      (forall j, on' j = true -> on j = true \/ o = OSub j) /\
      forall S (upd : S -> V -> S) first i s h, (forall s, first s = []) ->
        let s' := match o, f with OEmit (Next v), Open => upd s v | _, _ => s end in
        final i (o :: h) (mrun D (s_sub D g i) (received_from upd first i (on i) f s (o :: h))) =
        final i h (mrun D (s_sub D g' i) (received_from upd first i (on' i) f' s' h)).
  Proof.
    intros o on f g I ON. destruct o as [j|j|e|]; cbn [sop_step].
    - destruct f as [|e|] eqn:F.
      + destruct (subscribe_open D on g j I ON) as [J S]. exists (on_subscribe D g j), (turn_on on j), Open. split; auto. split; auto. split.
        { intros k. unfold turn_on. destruct (Nat.eqb_spec k j) as [->|]; auto. }
        intros T upd first i s h FN. cbn. rewrite FN, S. unfold turn_on, final. cbn. rewrite (Nat.eqb_sym i j).
        destruct (Nat.eqb_spec j i) as [->|]; auto.
      + assert (NO : Ended e <> @Open V) by discriminate. destruct (subscribe_over D L _ on g j I NO) as [J S]. exists (on_subscribe D g j), on, (Ended e). split; auto. split; auto. split; [auto|].
        intros T upd first i s h FN. cbn. rewrite S. unfold final. cbn. rewrite (Nat.eqb_sym i j).
        destruct (Nat.eqb_spec j i) as [->|]; auto. rewrite mrun1.
        now rewrite (received_over _ upd first i false (on i) (Ended e) s h NO).
      + assert (NO : @Dropped V <> @Open V) by discriminate. destruct (subscribe_over D L _ on g j I NO) as [J S]. exists (on_subscribe D g j), on, Dropped. split; auto. split; auto. split; [auto|].
        intros T upd first i s h FN. cbn. rewrite S. unfold final. cbn. rewrite (Nat.eqb_sym i j).
        destruct (Nat.eqb_spec j i) as [->|]; auto. now rewrite (received_over _ upd first i false (on i) Dropped s h NO).
    - exists (unsubscribe D g j), on, f. split; auto. split; [now apply unsub_inv|]. split; auto.
      intros T upd first i s h FN. cbn. rewrite unsub_sub. unfold final at 1. cbn. rewrite (Nat.eqb_sym i j).
      destruct (Nat.eqb_spec j i) as [->|]; auto. rewrite (mrun_dead V D L _ (mkill D (s_sub D g i))) by apply (law_kill _ L).
      rewrite final_dead by apply (law_kill _ L). reflexivity.
    - destruct f as [|x|] eqn:F.
      + destruct (emit_open on g e I) as (g' & R & J & S). exists g', on, (if is_term e then Ended e else Open). split; auto. split; auto. split; auto.
        intros T upd first i s h FN. cbn. rewrite S. unfold final. cbn. destruct (on i) eqn:O.
        * cbn. rewrite mrun1. destruct e; reflexivity.
        * cbn. destruct e; reflexivity.
      + exists g, on, (Ended x). split; [now apply (emit_over (Ended x) on)|]. split; auto. split; auto. intros T upd first i s h FN. cbn. destruct e; reflexivity.
      + exists g, on, Dropped. split; [now apply (emit_over Dropped on)|]. split; auto. split; auto. intros T upd first i s h FN. cbn. destruct e; reflexivity.
    - exists (dispose D g), on, (drop f). split; auto. split; [now apply dispose_inv|]. split; auto.
      intros T upd first i s h FN. rewrite dispose_sub. destruct f; reflexivity.
  Qed.

  Lemma init_inv : forall d, Inv D Open (fun _ => false) (subj_init D d).
  Proof. intro d. constructor; cbn; auto; try discriminate; try constructor; try (intros ? []). Qed.

  Theorem publish_run : forall h d0, NoDup (subs h) ->
    exists g, sop_run D none (subj_init D d0) h = Some g /\
      forall i, s_sub D g i = final i h (mrun D d0 (received i h)).
  Proof.
    intros h d0 N.
    assert (X : forall h on f g, Inv D f on g -> NoDup (subs h) -> (forall i, In i (subs h) -> on i = false) ->
      exists g', sop_run D none g h = Some g' /\
        forall i, s_sub D g' i = final i h (mrun D (s_sub D g i) (received_from (fun (s : unit) _ => s) (fun _ => []) i (on i) f tt h))).
    { clear h N. induction h as [|o h IH]; intros on f g I N O; cbn [sop_run].
      - exists g. split; auto.
      - destruct (hist_step o on f g I) as (g' & on' & f' & R & J & OO & E).
        { destruct o; auto. apply O. now left. }
        rewrite R. destruct (IH on' f' g' J) as (g2 & R2 & E2).
        + destruct o; cbn in N; auto. now inversion N.
        + intros i H. destruct (on' i) eqn:Q; auto. destruct (OO i Q) as [X|X].
          * rewrite O in X; [discriminate|]. destruct o; cbn; auto. 
          * subst o. cbn in N. inversion N. contradiction.
        + exists g2. split; auto. intro i. rewrite E2. symmetry. rewrite E by auto. destruct o as [| |[]|], f; reflexivity. }
    destruct (X h _ _ _ (init_inv d0) N (fun _ _ => eq_refl)) as (g & R & E). exists g. split; auto.
  Qed.

  (** behavior_subject: subscription first delivers the latest value. *)
  Theorem behavior_run : forall h v0 d0, NoDup (subs h) ->
    exists b, bop_run D (subj_init D d0, v0) h = Some b /\
      forall i, s_sub D (fst b) i = final i h (mrun D d0 (received_latest v0 i h)).
  Proof.
    intros h v0 d0 N. unfold received_latest.
    assert (X : forall h on f g v, Inv D f on g -> NoDup (subs h) -> (forall i, In i (subs h) -> on i = false) ->
      exists b, bop_run D (g, v) h = Some b /\
        forall i, s_sub D (fst b) i = final i h (mrun D (s_sub D g i) (received_from (fun (_ v : V) => v) (fun s => [s]) i (on i) f v h))).
    { clear h N v0. induction h as [|o h IH]; intros on f g v I N O; cbn [bop_run].
      - exists (g, v). split; auto.
      - destruct o as [j|j|e|]; cbn [bop_step fst snd].
        + assert (ON : on j = false) by (apply O; now left). cbn in N. inversion N as [|? ? N1 N2]; subst.
          rewrite (i_flag _ _ _ _ I). destruct f as [|e|] eqn:F.
          * set (g1 := set_sub D g j _). assert (I1 : Inv D Open on g1) by (apply set_inv; auto; apply mono_step; auto).
            destruct (subscribe_open D on g1 j I1 ON) as [J S].
            destruct (IH (turn_on on j) Open _ v J N2) as (b & R & E).
            { intros i H. unfold turn_on. destruct (Nat.eqb_spec i j); [subst; contradiction|]. apply O. now right. }
            exists b. split; auto. intro i. rewrite E, S. cbn. unfold turn_on, final. cbn. rewrite (Nat.eqb_sym i j).
            destruct (Nat.eqb_spec j i) as [->|]; auto.
          * assert (NO : Ended e <> @Open V) by discriminate. destruct (subscribe_over D L _ on g j I NO) as [J S].
            destruct (IH on (Ended e) _ v J N2) as (b & R & E). { intros; apply O; now right. }
            exists b. split; auto. intro i. rewrite E, S. cbn. unfold final. cbn. rewrite (Nat.eqb_sym i j).
            destruct (Nat.eqb_spec j i) as [->|]; auto. rewrite mrun1.
            now rewrite (received_over _ (fun (_ v : V) => v) (fun s => [s]) i false (on i) (Ended e) v h NO).
          * assert (NO : @Dropped V <> @Open V) by discriminate. destruct (subscribe_over D L _ on g j I NO) as [J S].
            destruct (IH on Dropped _ v J N2) as (b & R & E). { intros; apply O; now right. }
            exists b. split; auto. intro i. rewrite E, S. cbn. unfold final. cbn. rewrite (Nat.eqb_sym i j).
            destruct (Nat.eqb_spec j i) as [->|]; auto.
            now rewrite (received_over _ (fun (_ v : V) => v) (fun s => [s]) i false (on i) Dropped v h NO).
        + cbn [sop_step]. destruct (IH on f _ v (unsub_inv D L _ _ _ j I) N O) as (b & R & E). exists b. split; auto.
          intro i. rewrite E, unsub_sub. cbn. unfold final at 2. cbn. rewrite (Nat.eqb_sym i j).
          destruct (Nat.eqb_spec j i) as [->|]; auto. rewrite (mrun_dead V D L _ (mkill D (s_sub D g i))) by apply (law_kill _ L).
          rewrite final_dead by apply (law_kill _ L). reflexivity.
        + rewrite (i_flag _ _ _ _ I). destruct f as [|x|] eqn:F.
          * destruct (emit_open on g e I) as (g' & R & J & S). fold none. rewrite R.
            destruct (IH on _ g' (match e with Next v => v | _ => v end) J N O) as (b & R2 & E). exists b. split; auto.
            intro i. rewrite E, S. cbn. unfold final. cbn. destruct (on i) eqn:Q; cbn; rewrite ?mrun1; destruct e; reflexivity.
          * destruct (IH on (Ended x) g v I N O) as (b & R2 & E). exists b. split; auto.
          * destruct (IH on Dropped g v I N O) as (b & R2 & E). exists b. split; auto.
        + cbn [sop_step]. destruct (IH on (drop f) _ v (dispose_inv D _ _ _ I) N O) as (b & R & E). exists b. split; auto.
          intro i. rewrite E, dispose_sub. destruct f; reflexivity. }
    destruct (X h _ _ _ v0 (init_inv d0) N (fun _ _ => eq_refl)) as (b & R & E). exists b. split; auto.
  Qed.
End Hist.

(** ** replay_subject *)
Section ReplayP.
  Context {V : Type} (D : machine V) (L : lawful D) (limit age : option nat) (LP : limit <> Some 0).

  Lemma skip_skip : forall X (l : list X) a b, skipn a (skipn b l) = skipn (a + b) l.
  Proof.
    induction l as [|x l IH]; intros a b; [now rewrite !skipn_nil|]. destruct b as [|b].
    - now rewrite Nat.add_0_r.
    - replace (a + S b) with (S (a + b)) by lia. cbn. apply IH.
  Qed.
  Lemma lastn_snoc : forall (l : list (V * nat)) x,
    lastn limit (l ++ [x]) = (match limit with Some n => skipn (S (length (lastn limit l)) - n) (lastn limit l) | None => l end) ++ [x].
  Proof.
    intros l x. unfold lastn. destruct limit as [[|n]|]; auto; [congruence|]. rewrite app_length, skipn_length. cbn [length].
    destruct (Nat.le_gt_cases (length l) n) as [H|H].
    - replace (length l + 1 - S n) with 0 by lia. replace (length l - S n) with 0 by lia.
      replace (S (length l - 0) - S n) with 0 by lia. reflexivity.
    - replace (length l + 1 - S n) with (length l - n) by lia. rewrite skipn_app. replace (length l - n - length l) with 0 by lia. cbn [skipn]. f_equal.
      destruct (Nat.eq_dec (length l) (S n)) as [E|NE].
      + rewrite E, Nat.sub_diag. cbn [skipn]. replace (S (S n - 0) - S n) with (S n - n) by lia. reflexivity.
      + replace (S (length l - (length l - S n)) - S n) with 1 by lia.
        replace (length l - n) with (1 + (length l - S n)) by lia. rewrite <- skip_skip. reflexivity.
  Qed.

  Definition sorted (l : list (V * nat)) : Prop := forall a x b, l = a ++ x :: b -> Forall (fun y => snd x <= snd y) b.
  Lemma sorted_tail : forall x l, sorted (x :: l) -> sorted l.
  Proof. intros x l S a y b E. apply (S (x :: a) y b). now rewrite E. Qed.
  Lemma sorted_suffix : forall a l, sorted (a ++ l) -> sorted l.
  Proof. induction a as [|x a IH]; intros l S; auto. apply IH. now apply sorted_tail with x. Qed.
  Lemma sorted_snoc : forall l x, sorted l -> Forall (fun y => snd y <= snd x) l -> sorted (l ++ [x]).
  Proof.
    intros l x S F a y b E. destruct b as [|z b'] using rev_ind; [constructor|]. clear IHb'.
    replace (a ++ y :: b' ++ [z]) with ((a ++ y :: b') ++ [z]) in E by (now rewrite <- app_assoc).
    apply app_inj_tail in E as [-> ->]. apply Forall_app. split; [eapply S; reflexivity|]. constructor; auto.
    apply Forall_app in F as [_ F]. now inversion F.
  Qed.

  Lemma pop_filter : forall a t l, sorted l -> pop_old a t l = filter (fun x => t - snd x <=? a) l /\
    exists dr, l = dr ++ pop_old a t l /\ Forall (fun x => a < t - snd x) dr.
  Proof.
    intros a t. induction l as [|x l IH]; intro S; cbn [pop_old filter]; [split; auto; exists []; auto|].
    destruct (IH (sorted_tail _ _ S)) as (E & dr & Q & F). destruct (Nat.ltb_spec a (t - snd x)) as [LT|GE].
    - rewrite (proj2 (Nat.leb_gt _ _)) by lia. split; auto. exists (x :: dr). cbn. split; [now rewrite <- Q | constructor; auto].
    - rewrite (proj2 (Nat.leb_le _ _)) by lia. split; [|exists []; split; [reflexivity | constructor]]. f_equal. symmetry.
      pose proof (S [] x l eq_refl) as FA. clear - FA GE. induction l as [|y l IH]; auto. inversion FA as [|? ? Y FA']; subst. cbn.
      rewrite (proj2 (Nat.leb_le _ _)) by lia. f_equal. auto.
  Qed.

  (** The buffer against all values that have been pushed; T: the latest time seen. *)
  Record Buf (T : nat) (past buf : list (V * nat)) : Prop := {
    u_sorted : sorted past;
    u_time : Forall (fun x => snd x <= T) past;
    u_buf : match age with
            | Some a => exists dr, lastn limit past = dr ++ buf /\ Forall (fun x => a < T - snd x) dr
            | None => map fst (lastn limit past) = map fst buf
            end
  }.
  Lemma buf_later : forall T T' past buf, T <= T' -> Buf T past buf -> Buf T' past buf.
  Proof.
    intros T T' past buf LE [S F B]. constructor; auto.
    - eapply Forall_impl; [|exact F]. cbn. intros. lia.
    - destruct age as [a|]; auto. destruct B as (dr & E & G). exists dr. split; auto. eapply Forall_impl; [|exact G]. cbn. intros. lia.
  Qed.
  Lemma lastn_suffix : forall (l : list (V * nat)), exists a, l = a ++ lastn limit l.
  Proof. intro l. unfold lastn. destruct limit as [n|]; [|exists []; auto]. exists (firstn (length l - n) l). symmetry. apply firstn_skipn. Qed.

  Lemma buf_get : forall T past buf, Buf T past buf ->
    map fst (deduce age T buf) = kept limit age T past /\ Buf T past (deduce age T buf).
  Proof.
    intros T past buf B. pose proof B as [S F U]. unfold kept, deduce, young. destruct age as [a|] eqn:AG.
    - destruct U as (dr & E & G). assert (SB : sorted buf).
      { destruct (lastn_suffix past) as [x X]. rewrite E in X. apply (sorted_suffix (x ++ dr)). now rewrite <- app_assoc, <- X. }
      destruct (pop_filter a T buf SB) as (P & dr2 & Q & G2). split.
      + rewrite P, E, filter_app. replace (filter _ dr) with (@nil (V * nat)); [reflexivity|].
        clear - G. symmetry. induction G as [|x l H G IH]; cbn; auto. rewrite (proj2 (Nat.leb_gt _ _)) by lia. auto.
      + constructor; auto. rewrite AG. exists (dr ++ dr2). split; [rewrite E, <- app_assoc, <- Q; reflexivity|]. apply Forall_app. auto.
    - split; auto. rewrite <- U. f_equal. symmetry. clear. induction (lastn limit past) as [|x l IH]; cbn; auto. now rewrite IH.
  Qed.

  Lemma skipn_dr : forall k (dr buf : list (V * nat)), (dr = [] \/ k <= 1) -> exists d, skipn k (dr ++ buf) = d ++ skipn (k - length dr) buf /\ (forall P : V * nat -> Prop, Forall P dr -> Forall P d).
  Proof.
    intros k dr buf H. destruct dr as [|x dr].
    - exists []. cbn. rewrite Nat.sub_0_r. split; auto.
    - destruct H as [H|H]; [discriminate|]. destruct k as [|[|k]]; [| |lia].
      + exists (x :: dr). cbn. split; auto.
      + exists dr. cbn. split; auto. intros P F. now inversion F.
  Qed.
  Lemma buf_add : forall T past buf v, Buf T past buf -> Buf T (past ++ [(v, T)]) (add_value limit age T v buf).
  Proof.
    intros T past buf v B. pose proof B as [S F U]. constructor.
    - now apply sorted_snoc.
    - apply Forall_app. split; auto.
    - unfold add_value. rewrite lastn_snoc. unfold deduce, stamp. destruct age as [a|] eqn:AG.
      + destruct U as (dr & E & G). assert (SB : sorted buf).
        { destruct (lastn_suffix past) as [x X]. rewrite E in X. apply (sorted_suffix (x ++ dr)). now rewrite <- app_assoc, <- X. }
        assert (X : exists d, match limit with Some n => skipn (Datatypes.S (length (lastn limit past)) - n) (lastn limit past) | None => past end = d ++ pop_full limit buf /\ Forall (fun x => a < T - snd x) d).
        { unfold pop_full. destruct limit as [n|] eqn:LI.
          - assert (LE : length (lastn (Some n) past) <= n) by (unfold lastn; rewrite skipn_length; lia).
            rewrite E in LE |- *. rewrite app_length in LE |- *.
            destruct (skipn_dr (Datatypes.S (length dr + length buf) - n) dr buf) as (d & Q & FP); [right; lia|]. exists d. split; auto.
            rewrite Q. f_equal. f_equal. destruct dr; cbn [length] in *; lia.
          - unfold lastn in E. exists dr. auto. }
        destruct X as (d & -> & FD).
        assert (SP : sorted (pop_full limit buf)).
        { unfold pop_full. destruct limit as [n|]; auto. rewrite <- (firstn_skipn (Datatypes.S (length buf) - n) buf) in SB. now apply sorted_suffix in SB. }
        destruct (pop_filter a T _ SP) as (_ & dr2 & Q & G2). exists (d ++ dr2). split; [|apply Forall_app; auto].
        rewrite Q at 1. now rewrite !app_assoc.
      + rewrite !map_app. cbn. f_equal. unfold pop_full. destruct limit as [n|].
        * assert (LE : length (lastn (Some n) past) = length buf) by (rewrite <- (map_length fst), U, map_length; reflexivity).
          rewrite LE. rewrite <- !skipn_map, U. reflexivity.
        * unfold lastn in U. exact U.
  Qed.

  Theorem replay_run : forall h d0, NoDup (subs (map snd h)) -> in_time 0 (map fst h) ->
    exists b, rop_run D limit age (subj_init D d0, []) h = Some b /\
      forall i, s_sub D (fst b) i = final D i (map snd h) (mrun D d0 (replayed limit age i h)).
  Proof.
    intros h d0 N IT. unfold replayed.
    assert (OV : forall i b1 b2 f past h, f <> Open -> replayed_from limit age i b1 f past h = @replayed_from V limit age i b2 f past h).
    { clear. intros i b1 b2 f past h F. revert b1 b2 past. induction h as [|[t o] h IH]; intros b1 b2 past; cbn; auto.
      destruct o as [j|j|e|]; destruct f; try congruence; cbn; try (destruct (j =? i)); auto. }
    assert (X : forall h on f g buf past T, Inv D f on g -> Buf T past buf -> NoDup (subs (map snd h)) -> in_time T (map fst h) ->
      (forall i, In i (subs (map snd h)) -> on i = false) ->
      exists b, rop_run D limit age (g, buf) h = Some b /\
        forall i, s_sub D (fst b) i = final D i (map snd h) (mrun D (s_sub D g i) (replayed_from limit age i (on i) f past h))).
    { clear h N IT. induction h as [|[t o] h IH]; intros on f g buf past T I B N IT O; cbn [rop_run].
      - exists (g, buf). split; auto.
      - cbn [map fst in_time] in IT. destruct IT as [LE IT]. apply (buf_later T t past buf LE) in B.
        cbn [map snd] in N, O |- *. destruct o as [j|j|e|]; cbn [rop_step fst snd].
        + assert (ON : on j = false) by (apply O; now left). cbn in N. inversion N as [|? ? N1 N2]; subst.
          destruct (buf_get t past buf B) as [K B2]. set (l := deduce age t buf) in *.
          set (g1 := set_sub D g j _). assert (MO : forall l d, mdisp D (mrun D d l) = false -> mdisp D d = false).
          { clear - L. induction l as [|e l IH]; intros d H; auto. apply (mono_step D L d e). apply (IH _ H). }
          assert (I1 : Inv D f on g1) by (apply set_inv; auto; apply MO).
          assert (SG : forall i, s_sub D g1 i = if i =? j then mrun D (s_sub D g j) (map Next (kept limit age t past)) else s_sub D g i).
          { intro i. unfold g1. cbn. rewrite <- K, map_map. reflexivity. }
          destruct f as [|e|] eqn:F.
          * destruct (subscribe_open D on g1 j I1 ON) as [J S].
            destruct (IH (turn_on on j) Open _ l past t J B2 N2 IT) as (b & R & E).
            { intros i H. unfold turn_on. destruct (Nat.eqb_spec i j); [subst; contradiction|]. apply O. now right. }
            exists b. split; auto. intro i. rewrite E, S, SG. cbn [replayed_from]. unfold turn_on, final. cbn. rewrite (Nat.eqb_sym i j).
            destruct (Nat.eqb_spec j i) as [->|]; auto. now rewrite mrun_app.
          * assert (NO : Ended e <> @Open V) by discriminate. destruct (subscribe_over D L _ on g1 j I1 NO) as [J S].
            destruct (IH on (Ended e) _ l past t J B2 N2 IT) as (b & R & E). { intros; apply O; now right. }
            exists b. split; auto. intro i. rewrite E, S, !SG. cbn [replayed_from]. unfold final. cbn. rewrite (Nat.eqb_sym i j).
            destruct (Nat.eqb_spec j i) as [->|]; auto. rewrite Nat.eqb_refl, mrun_app.
            now rewrite (OV i (on i) false (Ended e) past h NO).
          * assert (NO : @Dropped V <> @Open V) by discriminate. destruct (subscribe_over D L _ on g1 j I1 NO) as [J S].
            destruct (IH on Dropped _ l past t J B2 N2 IT) as (b & R & E). { intros; apply O; now right. }
            exists b. split; auto. intro i. rewrite E, S, !SG. cbn [replayed_from]. unfold final. cbn. rewrite (Nat.eqb_sym i j).
            destruct (Nat.eqb_spec j i) as [->|]; auto. rewrite mrun_app.
            now rewrite (OV i (on i) false Dropped past h NO).
        + cbn [sop_step]. destruct (IH on f _ buf past t (unsub_inv D L _ _ _ j I) B N IT O) as (b & R & E). exists b. split; auto.
          intro i. rewrite E, unsub_sub. cbn [replayed_from]. unfold final at 2. cbn. rewrite (Nat.eqb_sym i j).
          destruct (Nat.eqb_spec j i) as [->|]; auto. rewrite (mrun_dead V D L _ (mkill D (s_sub D g i))) by apply (law_kill _ L).
          rewrite final_dead by (auto; apply (law_kill _ L)). reflexivity.
        + rewrite (i_flag _ _ _ _ I). destruct f as [|x|] eqn:F.
          * destruct (emit_open D L on g e I) as (g' & R & J & S). unfold none in R. rewrite R.
            assert (B2 : Buf t (match e with Next v => past ++ [(v, t)] | _ => past end) (match e with Next v => add_value limit age t v buf | _ => buf end)).
            { destruct e; auto. now apply buf_add. }
            destruct (IH on _ g' _ _ t J B2 N IT O) as (b & R2 & E). exists b. split; auto.
            intro i. rewrite E, S. cbn [replayed_from]. unfold final. cbn. destruct (on i) eqn:Q; cbn; rewrite ?(mrun1 D); reflexivity.
          * destruct (IH on (Ended x) g buf past t I B N IT O) as (b & R2 & E). exists b. split; auto.
          * destruct (IH on Dropped g buf past t I B N IT O) as (b & R2 & E). exists b. split; auto.
        + cbn [sop_step]. destruct (IH on (drop f) _ buf past t (dispose_inv D _ _ _ I) B N IT O) as (b & R & E). exists b. split; auto.
          intro i. rewrite E, dispose_sub. destruct f; reflexivity. }
    assert (B0 : Buf 0 [] []).
    { constructor; [intros [|? ?] x b E; discriminate | constructor |]. destruct age; [exists []; split; [|constructor]|]; unfold lastn; destruct limit; reflexivity. }
    destruct (X h _ _ _ [] [] 0 (init_inv D d0) B0 N IT (fun _ _ => eq_refl)) as (b & R & E). exists b. split; auto.
  Qed.
End ReplayP.

(** ** Callbacks that unsubscribe observers or dispose the subject *)
Section Quiet.
  Context {V : Type} (D : machine V) (L : lawful D) (react : nat -> V -> list act) (Q : quiet react).

  Lemma quiet_hist : forall h on f g, Inv D f on g -> NoDup (subs h) -> (forall i, In i (subs h) -> on i = false) ->
    exists g' on' f', sop_run D react g h = Some g' /\ Inv D f' on' g' /\ (forall i, on' i = true -> on i = true \/ In i (subs h)) /\
      (f' = Open -> f = Open /\ forall i, on i = true \/ In i (subs h) -> on' i = true).
  Proof.
    induction h as [|o h IH]; intros on f g I N O; cbn [sop_run].
    - exists g, on, f. split; auto. split; auto. split; auto. intro F. split; auto. intros i [H|[]]. auto.
    - assert (ST : exists g1 on1 f1, sop_step D react g o = Some g1 /\ Inv D f1 on1 g1 /\ (forall j, on1 j = true -> on j = true \/ o = OSub j) /\
        (f1 = Open -> f = Open /\ forall j, on j = true \/ o = OSub j -> on1 j = true)).
      { assert (OV : forall e, f <> Open -> emit D react g e = Some g) by (intros e F; unfold emit; rewrite (i_flag _ _ _ _ I); destruct f; congruence).
        destruct o as [j|j|e|]; cbn [sop_step].
        - destruct f as [|e|] eqn:F.
          + destruct (subscribe_open D on g j I) as [J _]; [apply O; now left|]. exists (on_subscribe D g j), (turn_on on j), Open. split; auto. split; auto.
            split; [|intros _; split; auto]; intros k; unfold turn_on; destruct (Nat.eqb_spec k j) as [->|]; auto. intros [H|H]; congruence.
          + destruct (subscribe_over D L _ on g j I ltac:(discriminate)) as [J _]. exists (on_subscribe D g j), on, (Ended e). repeat (split; auto); discriminate.
          + destruct (subscribe_over D L _ on g j I ltac:(discriminate)) as [J _]. exists (on_subscribe D g j), on, Dropped. repeat (split; auto); discriminate.
        - exists (unsubscribe D g j), on, f. split; auto. split; [now apply unsub_inv|]. split; auto. intros F. split; auto. intros k [H|H]; [auto | discriminate].
        - destruct f as [|x|] eqn:F; [|rewrite OV by discriminate; exists g, on, (Ended x); repeat (split; auto); discriminate
                                      | rewrite OV by discriminate; exists g, on, Dropped; repeat (split; auto); discriminate].
          unfold emit. rewrite (i_flag _ _ _ _ I). destruct e as [v|x|].
          + destruct (next_quiet D L react Q v g on I) as (g' & R & (f' & J & _) & _). exists g', on, f'. split; auto. split; auto. split; auto.
            intros _. split; auto. intros k [H|H]; [auto | discriminate].
          + destruct (term_open D L on g (Err x) eq_refl I) as [J _]. exists (on_term D g (SErr x) (Err x)), on, (Ended (Err x)). repeat (split; auto); discriminate.
          + destruct (term_open D L on g Done eq_refl I) as [J _]. exists (on_term D g SDone Done), on, (Ended Done). repeat (split; auto); discriminate.
        - exists (dispose D g), on, (drop f). split; auto. split; [now apply dispose_inv|]. split; auto. intro F. destruct f; discriminate. }
      destruct ST as (g1 & on1 & f1 & R & J & OO & OF). rewrite R. destruct (IH on1 f1 g1 J) as (g2 & on2 & f2 & R2 & J2 & O2 & O3).
      + destruct o; cbn in N; auto. now inversion N.
      + intros i H. destruct (on1 i) eqn:P; auto. destruct (OO i P) as [X|X].
        * rewrite O in X; [discriminate|]. destruct o; cbn; auto.
        * subst o. cbn in N. inversion N. contradiction.
      + exists g2, on2, f2. split; auto. split; auto. split.
        * intros i H. destruct (O2 i H) as [X|X].
          -- destruct (OO i X) as [Y|Y]; auto. subst o. right. now left.
          -- right. destruct o; cbn; auto.
        * intro F. destruct (O3 F) as [F1 H3]. destruct (OF F1) as [F0 H1]. split; auto. intros i [H|H]; [apply H3; left; apply H1; auto|].
          destruct o as [j|j|e|]; cbn in H; [destruct H as [->|H]; [apply H3; left; apply H1; auto|]| | |]; apply H3; auto.
  Qed.

  (** Observer j during one emission. *)
  Lemma kill2 : forall d, mkill D (mkill D d) = mkill D d.
  Proof. intro d. apply (law_kill_dead _ L), (law_kill _ L). Qed.
  Lemma acts_one : forall l st j, fold_left (act_sub D) l st j = if existsb (fun a => match a with AUnsub k => k =? j | _ => false end) l then mkill D (st j) else st j.
  Proof.
    induction l as [|a l IH]; intros st j; cbn [fold_left existsb]; auto. rewrite IH.
    destruct a as [k|k|]; cbn [act_sub]; try (cbn; reflexivity). rewrite (Nat.eqb_sym k j).
    destruct (Nat.eqb_spec j k) as [->|]; cbn; auto. destruct (existsb _ l); auto. apply kill2.
  Qed.
  Definition unsubs (v : V) (j : nat) : Prop := exists i, In (AUnsub j) (react i v).
  Lemma emit_all_free : forall v ids st j, NoDup ids -> ~ unsubs v j ->
    emit_all D react v ids st j = if existsb (Nat.eqb j) ids then mstep D (st j) (Next v) else st j.
  Proof.
    intros v ids st j N U. revert st. induction ids as [|i r IH]; intro st; cbn [emit_all existsb]; auto. inversion N as [|? ? N1 N2]; subst.
    rewrite (IH N2).
    assert (E : (if mdisp D (st i) then fun j => if j =? i then mstep D (st i) (Next v) else st j
                 else fold_left (act_sub D) (react i v) (fun j => if j =? i then mstep D (st i) (Next v) else st j)) j =
                if j =? i then mstep D (st i) (Next v) else st j).
    { destruct (mdisp D (st i)); auto. rewrite acts_one. destruct (existsb _ (react i v)) eqn:X; auto.
      apply existsb_exists in X as (a & A1 & A2). destruct a as [k|k|]; try discriminate. apply Nat.eqb_eq in A2. subst k. exfalso. apply U. now exists i. }
    rewrite E. destruct (Nat.eqb_spec j i) as [->|NE]; cbn; auto.
    destruct (existsb (Nat.eqb i) r) eqn:X; auto. apply existsb_exists in X as (y & Y1 & Y2). apply Nat.eqb_eq in Y2. subst y. contradiction.
  Qed.
  Lemma emit_all_killed : forall v ids st j, NoDup ids ->
    let r := emit_all D react v ids st j in
    r = st j \/ r = mkill D (st j) \/ (In j ids /\ (r = mstep D (st j) (Next v) \/ r = mkill D (mstep D (st j) (Next v)))).
  Proof.
    intros v ids st j N. revert st. induction ids as [|i r IH]; intro st; cbn [emit_all]; [auto|]. inversion N as [|? ? N1 N2]; subst.
    set (st2 := if mdisp D (st i) then _ else _). destruct (IH N2 st2) as [E|[E|[I E]]]; cbn zeta; rewrite ?E.
    - unfold st2. destruct (mdisp D (st i)); [|rewrite acts_one; destruct (existsb _ (react i v))];
        (destruct (Nat.eqb_spec j i) as [->|]; [right; right; split; [now left | auto] | auto]).
    - unfold st2. destruct (mdisp D (st i)); [|rewrite acts_one; destruct (existsb _ (react i v)); rewrite ?kill2];
        (destruct (Nat.eqb_spec j i) as [->|]; [right; right; split; [now left | auto] | auto]).
    - assert (NE : j <> i) by (intros ->; contradiction). apply Nat.eqb_neq in NE.
      assert (S2 : st2 j = st j \/ st2 j = mkill D (st j)).
      { unfold st2. destruct (mdisp D (st i)); [|rewrite acts_one; destruct (existsb _ (react i v))]; rewrite NE; auto. }
      assert (KM : mstep D (mkill D (st j)) (Next v) = mkill D (st j)) by (apply (law_dead _ L), (law_kill _ L)).
      destruct S2 as [S2|S2]; rewrite S2 in E; rewrite ?KM, ?kill2 in E.
      + right; right. split; [now right|]. exact E.
      + right; left. destruct E; auto.
  Qed.

  Theorem quiet_run : forall h d0, NoDup (subs h) ->
    exists g, sop_run D react (subj_init D d0) h = Some g /\
      forall v, exists g', sop_run D react g [OEmit (Next v)] = Some g' /\
        forall j, let d := s_sub D g j in let d' := s_sub D g' j in
          (d' = d \/ d' = mstep D d (Next v) \/ d' = mkill D d \/ d' = mkill D (mstep D d (Next v))) /\
          (~ unsubs v j -> mdisp D d = false -> s_flag D g = false -> In j (subs h) -> d' = mstep D d (Next v)) /\
          (~ In j (subs h) -> ~ unsubs v j -> d' = d).
  Proof.
    intros h d0 N. destruct (quiet_hist h _ _ _ (init_inv D d0) N (fun _ _ => eq_refl)) as (g & on & f & R & I & OO & OF). exists g. split; auto.
    intro v. cbn [sop_run sop_step]. unfold emit. destruct (s_flag D g) eqn:FL.
    - exists g. split; auto. intro j. cbn zeta. split; auto. split; [intros; congruence | auto].
    - assert (f = Open) by (rewrite (i_flag _ _ _ _ I) in FL; destruct f; auto; discriminate). subst f.
      destruct (next_quiet D L react Q v g on I) as (g' & R' & _ & S). rewrite R'. exists g'. split; auto. intro j. cbn zeta. rewrite S.
      pose proof (i_nd _ _ _ _ I) as ND. split; [|split].
      + destruct (emit_all_killed v (obs_of D g) (s_sub D g) j ND) as [E|[E|[_ [E|E]]]]; auto.
      + intros U A _ IN0. assert (IN : In j (obs_of D g)) by (apply (i_in _ _ _ _ I); auto; now apply (OF eq_refl); auto).
        rewrite emit_all_free by auto. replace (existsb (Nat.eqb j) (obs_of D g)) with true; auto. symmetry. apply existsb_exists. exists j. split; auto. apply Nat.eqb_refl.
      + intros NS U. rewrite emit_all_free by auto. destruct (existsb (Nat.eqb j) (obs_of D g)) eqn:E; auto.
        apply existsb_exists in E as (y & Y1 & Y2). apply Nat.eqb_eq in Y2. subst y. apply (i_on _ _ _ _ I) in Y1. destruct (OO j Y1); [discriminate | contradiction].
  Qed.

  (** A callback that subscribes. *)
  Theorem subscribe_breaks : forall g p i r v j acts, s_st D g = SObs (Some p) -> p < length (s_heap D g) -> deque D g p = i :: r ->
    mdisp D (s_sub D g i) = false -> mdisp D (mstep D (s_sub D g i) (Next v)) = false ->
    forall react', react' i v = ASub j :: acts -> Forall (fun a => match a with ASub _ => True | _ => False end) acts ->
    on_next D react' g v = None.
  Proof.
    intros g p i r v j acts S P DQ A A2 react' RE AC. unfold on_next. rewrite S, DQ. cbn [deliver]. rewrite A, RE.
    set (g1 := notify D g i (Next v)).
    assert (G1 : s_st D g1 = SObs (Some p) /\ s_heap D g1 = s_heap D g).
    { unfold g1, notify. rewrite A2. cbn. auto. }
    destruct G1 as [S1 H1].
    assert (X : forall l g0 m, p < length (s_heap D g0) -> m < length (deque D g0 p) -> Forall (fun a => match a with ASub _ => True | _ => False end) l ->
       m < length (deque D (fold_left (do_act D) l g0) p)).
    { clear. induction l as [|a l IH]; intros g0 m P M F; cbn [fold_left]; auto. inversion F as [|? ? F1 F2]; subst. destruct a as [k|k|]; try contradiction.
      assert (K : p < length (s_heap D (on_subscribe D g0 k)) /\ m < length (deque D (on_subscribe D g0 k) p)).
      { unfold on_subscribe. destruct (s_st D g0) as [[q|]| | |]; auto.
        - set (g2 := SJ D _ _ _ _). assert (B : p < length (s_heap D g2) /\ m < length (deque D g2 p)).
          { unfold g2, deque. cbn. rewrite push_length. split; auto. clear - M P. unfold deque in M. revert P M. generalize (s_heap D g0). intro hp. revert q p.
            induction hp as [|x hp IH]; intros q p P M; cbn in *; [lia|]. destruct q as [|q], p as [|p]; cbn in *; auto; [rewrite app_length; lia|]. apply IH; auto. lia. }
          destruct (mdisp D (s_sub D g2 k)); auto. destruct (cleanup_heap D g2 k p (proj1 B)) as [C1 C2]. rewrite C2. tauto.
        - set (g2 := alloc D g0 [k]). assert (B : p < length (s_heap D g2) /\ deque D g2 p = deque D g0 p).
          { unfold g2. split; [cbn; rewrite app_length; lia | now apply deque_alloc]. }
          destruct B as [B1 B2]. destruct (mdisp D (s_sub D g2 k)); [|now rewrite B2]. destruct (cleanup_heap D g2 k p B1) as [C1 C2]. now rewrite C2, B2. }
      cbn [do_act]. apply IH; tauto. }
    assert (Y : length (i :: r) < length (deque D (fold_left (do_act D) (ASub j :: acts) g1) p)).
    { cbn [fold_left do_act]. apply X; auto.
      - unfold on_subscribe. rewrite S1. set (g2 := SJ D _ _ _ _). assert (B : p < length (s_heap D g2)) by (unfold g2; cbn; rewrite push_length, H1; auto).
        destruct (mdisp D (s_sub D g2 j)); auto. now apply (cleanup_heap D g2 j p).
      - unfold on_subscribe. rewrite S1. set (g2 := SJ D _ _ _ _). assert (B : p < length (s_heap D g2)) by (unfold g2; cbn; rewrite push_length, H1; auto).
        assert (B2 : deque D g2 p = (i :: r) ++ [j]).
        { unfold g2, deque. cbn. rewrite H1, push_nth by auto. unfold deque in DQ. now rewrite DQ. }
        assert (B3 : length (i :: r) < length (deque D g2 p)) by (rewrite B2, app_length; cbn; lia).
        destruct (mdisp D (s_sub D g2 j)); auto. destruct (cleanup_heap D g2 j p B) as [_ C2]. now rewrite C2. }
    destruct (Nat.eqb_spec (length (deque D (fold_left (do_act D) (ASub j :: acts) g1) p)) (length (i :: r))); auto. lia.
  Qed.
End Quiet.
