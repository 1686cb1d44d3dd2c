(** Serialized subjects: linearizability of emissions from any number of threads. *)
From Verif Require Import Base Machine MachineProofs Concur MultiSpec MultiLin MultiProofs CallLin SubjConcModel.

Section SerP.
  Context {V : Type} (D : machine V) (L : lawful D) (n : nat) (d0 : mst D).
  Notation stp := (zstep D true).
  Notation act := (@cact zpc V).

  Definition zd (tr : list (alab V)) : mst D := mrun D d0 (map snd (lins tr)).
  Lemma zd_vis : forall tr x, zd (tr ++ [Vis x]) = zd tr.
  Proof. intros. unfold zd. rewrite lins_app. cbn. now rewrite app_nil_r. Qed.
  Lemma zd_lin : forall tr i e, zd (tr ++ [Lin i e]) = mstep D (zd tr) e.
  Proof. intros. unfold zd. rewrite lins_app, map_app, mrun_app. reflexivity. Qed.

  Definition holds (r : act) : bool := match r with Run _ k _ => calling k | Idle => false end.
  Definition zph (g : zst D) (r : act) : Prop :=
    match r with
    | Idle => True
    | Run e k l =>
        match k with
        | Z0 => l = false
        | Z1 => l = false /\ is_term e = false
        | ZL s => l = false /\ is_term e = false /\ forall j, j < n -> mdisp D (z_sub D g j) = false -> In j s
        | ZT => l = false /\ is_term e = true
        | ZX => l = false /\ is_term e = true
        | ZD s => l = true
        | ZF => l = true /\ is_term e = true /\ z_open D g = false
        end
    end.

  Record Z (g : zst D) (c : nat -> act) (tr : list (alab V)) : Prop := {
    z_ph : forall i, zph g (c i);
    z_one : forall i j, holds (c i) = true -> holds (c j) = true -> i = j;
    z_lock : z_ser D g = true <-> exists i, holds (c i) = true;
    z_free : z_ser D g = false -> forall j, j < n -> z_sub D g j = zd tr;
    z_hold : forall i e k l, c i = Run e k l -> calling k = true ->
      match k with
      | ZD s => NoDup s /\ (is_term e = true -> z_open D g = false) /\ forall j, j < n -> (In j s -> mstep D (z_sub D g j) e = zd tr) /\ (~ In j s -> z_sub D g j = zd tr)
      | _ => forall j, j < n -> z_sub D g j = zd tr
      end;
    z_in : z_open D g = true -> forall j, j < n -> mdisp D (z_sub D g j) = false -> In j (z_list D g);
    z_nd : NoDup (z_list D g);
    z_closed : z_open D g = false -> mdisp D (zd tr) = true;
    z_fl : z_flag D g = true -> z_open D g = false
  }.
  Definition nds (r : act) : Prop := match r with Run _ (ZL s) _ => NoDup s | _ => True end.
  Definition JZ g c tr := Z g c tr /\ forall i, nds (c i).

  Notation upr := (@upd_run zpc V).
  Ltac uc j i := unfold upd_run; destruct (Nat.eqb_spec j i); [subst j | ].
  Ltac dz H := destruct H as [PH ONE LK FR HD IN ND CL FL].

  Lemma Z_ext : forall g c c' tr, (forall j, c' j = c j) -> JZ g c tr -> JZ g c' tr.
  Proof.
    intros g c c' tr E [H NN]. split; [|intro i; rewrite E; auto]. dz H. constructor; auto.
    - intro i. rewrite E. auto.
    - intros i j. rewrite !E. auto.
    - rewrite LK. split; intros [i X]; exists i; [rewrite E|rewrite E in X]; auto.
    - intros i e k l C. rewrite E in C. exact (HD i e k l C).
  Qed.
  Lemma upr_twice : forall (c : nat -> act) i a b j, upr (upr c i a) i b j = upr c i b j.
  Proof. intros. unfold upd_run. destruct (j =? i); auto. Qed.

  (** Only the program counter moves. *)
  Lemma z_pc : forall g c tr i e k l r', JZ g c tr -> c i = Run e k l -> calling k = false ->
    holds r' = false -> zph g r' -> nds r' -> JZ g (upr c i r') tr.
  Proof.
    intros g c tr i e k l r' [H NN] C NC NH P NR. split; [|intro j; uc j i; auto]. dz H.
    assert (HO : forall j, holds (upr c i r' j) = holds (c j)).
    { intro j. uc j i; auto. rewrite C, NH. cbn. auto. }
    constructor; auto.
    - intro j. uc j i; auto.
    - intros a b. rewrite !HO. auto.
    - rewrite LK. split; intros [j X]; exists j; [now rewrite HO | now rewrite HO in X].
    - intros j e1 k1 l1. uc j i; [intros -> X; cbn in NH; congruence | exact (HD j e1 k1 l1)].
  Qed.
  (** An event that has no effect because the subject is closed. *)
  Lemma z_dead : forall g c tr i e, JZ g c tr -> z_open D g = false -> JZ g c (tr ++ [Lin i e]).
  Proof.
    intros g c tr i e [H NN] O. split; auto. pose proof (z_closed _ _ _ H O) as DE.
    assert (Q : zd (tr ++ [Lin i e]) = zd tr) by (rewrite zd_lin; now apply (law_dead _ L)). dz H. constructor; rewrite ?Q; auto.
  Qed.
  Lemma z_vis : forall g c tr x, JZ g c tr -> JZ g c (tr ++ [Vis x]).
  Proof. intros g c tr x [H NN]. split; auto. dz H. constructor; rewrite ?zd_vis; auto. Qed.

  Definition same_sub (g g' : zst D) : Prop := z_sub D g' = z_sub D g.

  Lemma z_lock_step : forall g c tr i e s, JZ g c tr -> c i = Run e (ZL s) false -> z_ser D g = false ->
    JZ (ZS D (z_open D g) (z_list D g) (z_flag D g) true (z_sub D g)) (upr c i (Run e (ZD s) true)) (tr ++ [Lin i e]).
  Proof.
    intros g c tr i e s [H NN] C LF. split; [|intro j; uc j i; [exact I | apply NN]].
    pose proof (NN i) as NS. rewrite C in NS. cbn in NS.
    dz H. pose proof (PH i) as P. rewrite C in P. cbn in P. destruct P as (_ & T & A).
    assert (NO : forall j, holds (c j) = false).
    { intro j. destruct (holds (c j)) eqn:X; auto. assert (Y : z_ser D g = true) by (apply LK; eauto). congruence. }
    constructor; cbn [z_open z_list z_flag z_ser z_sub]; auto.
    - intro j. uc j i; [reflexivity|]. specialize (PH j). destruct (c j) as [|e1 k1 l1]; auto.
    - intros a b. uc a i; uc b i; auto; rewrite ?NO; intros; discriminate.
    - split; auto. intros _. exists i. now rewrite upd_same.
    - discriminate.
    - intros j e1 k1 l1. uc j i.
      + intros X _. injection X as <- <- <-. split; auto. split; [congruence|]. intros j LJ. rewrite zd_lin, (FR LF j LJ). split; auto.
        intro NI. symmetry. apply (law_dead _ L). destruct (mdisp D (zd tr)) eqn:E; auto. exfalso. apply NI, A; auto. now rewrite (FR LF j LJ).
      + intros X Y. specialize (NO j). rewrite X in NO. cbn in NO. congruence.
    - intro O. rewrite zd_lin, (law_dead _ L); auto.
  Qed.
  Lemma z_tlock_step : forall g c tr i e, JZ g c tr -> c i = Run e ZT false -> z_ser D g = false ->
    JZ (ZS D (z_open D g) (z_list D g) (z_flag D g) true (z_sub D g)) (upr c i (Run e ZX false)) tr.
  Proof.
    intros g c tr i e [H NN] C LF. split; [|intro j; uc j i; [exact I | apply NN]].
    dz H. pose proof (PH i) as P. rewrite C in P. cbn in P.
    assert (NO : forall j, holds (c j) = false).
    { intro j. destruct (holds (c j)) eqn:X; auto. assert (Y : z_ser D g = true) by (apply LK; eauto). congruence. }
    constructor; cbn [z_open z_list z_flag z_ser z_sub]; auto.
    - intro j. uc j i; [exact P|]. specialize (PH j). destruct (c j) as [|e1 k1 l1]; auto.
    - intros a b. uc a i; uc b i; auto; rewrite ?NO; intros; discriminate.
    - split; auto. intros _. exists i. now rewrite upd_same.
    - intros j e1 k1 l1. uc j i.
      + intros X _. injection X as <- <- <-. auto.
      + intros X Y. specialize (NO j). rewrite X in NO. cbn in NO. congruence.
  Qed.
  Lemma z_exchange : forall g c tr i e, JZ g c tr -> c i = Run e ZX false ->
    JZ (ZS D false (z_list D g) (z_flag D g) (z_ser D g) (z_sub D g)) (upr c i (Run e (ZD (if z_open D g then z_list D g else [])) true)) (tr ++ [Lin i e]).
  Proof.
    intros g c tr i e [H NN] C. split; [|intro j; uc j i; [exact I | apply NN]].
    dz H. pose proof (PH i) as P. rewrite C in P. cbn in P. destruct P as [_ T].
    assert (HC : forall j, holds (upr c i (Run e (ZD (if z_open D g then z_list D g else [])) true) j) = holds (c j)).
    { intro j. uc j i; auto. rewrite C. reflexivity. }
    assert (LF : z_ser D g = true) by (apply LK; exists i; rewrite C; reflexivity).
    pose proof (HD i e ZX false C eq_refl) as EQ. cbn in EQ.
    constructor; cbn [z_open z_list z_flag z_ser z_sub]; auto.
    - intro j. uc j i; [reflexivity|]. specialize (PH j). destruct (c j) as [|e1 k1 l1]; auto. destruct k1; auto. destruct PH as (? & ? & _). cbn. auto.
    - intros a b. rewrite !HC. auto.
    - rewrite LK. split; intros [j X]; exists j; [now rewrite HC | now rewrite HC in X].
    - congruence.
    - intros j e1 k1 l1. uc j i.
      + intros X _. injection X as <- <- <-. split; [destruct (z_open D g); auto; constructor|]. split; auto.
        intros j LJ. rewrite zd_lin, (EQ j LJ). split; auto.
        intro NI. symmetry. apply (law_dead _ L). destruct (mdisp D (zd tr)) eqn:E; auto. exfalso.
        destruct (z_open D g) eqn:O; [|specialize (CL eq_refl); congruence]. apply NI, IN; auto. now rewrite (EQ j LJ).
      + intros X Y. exfalso. apply n0. apply ONE; [rewrite X; exact Y | rewrite C; reflexivity].
    - discriminate.
    - intros _. rewrite zd_lin. now apply (law_term _ L).
  Qed.

  Lemma z_call : forall g c tr i e j s, JZ g c tr -> c i = Run e (ZD (j :: s)) true ->
    JZ (znotify D g j e) (upr c i (Run e (ZD s) true)) tr.
  Proof.
    intros g c tr i e j s [H NN] C. split; [|intro x; uc x i; [exact I | apply NN]].
    dz H.
    assert (HC : forall x, holds (upr c i (Run e (ZD s) true) x) = holds (c x)).
    { intro x. uc x i; auto. rewrite C. reflexivity. }
    assert (LF : z_ser D g = true) by (apply LK; exists i; rewrite C; reflexivity).
    pose proof (HD i e _ true C eq_refl) as EQ. cbn in EQ. destruct EQ as (N & OT & EQ). inversion N as [|? ? N1 N2]; subst.
    assert (SB : forall x, z_sub D (znotify D g j e) x = if x =? j then mstep D (z_sub D g j) e else z_sub D g x) by reflexivity.
    assert (MO : forall x, mdisp D (z_sub D (znotify D g j e) x) = false -> mdisp D (z_sub D g x) = false).
    { intro x. rewrite SB. destruct (Nat.eqb_spec x j) as [->|]; auto. intro Q. destruct (mdisp D (z_sub D g j)) eqn:E; auto.
      rewrite (law_dead _ L) in Q by auto. congruence. }
    constructor; auto.
    - intro x. uc x i; [reflexivity|]. specialize (PH x). destruct (c x) as [|e1 k1 l1]; auto. destruct k1; auto.
      destruct PH as (? & ? & A). cbn [zph]. split; auto.
    - intros a b. rewrite !HC. auto.
    - cbn [znotify z_ser]. rewrite LK. split; intros [x X]; exists x; [now rewrite HC | now rewrite HC in X].
    - cbn [znotify z_ser]. congruence.
    - intros x e1 k1 l1. uc x i.
      + intros X _. injection X as <- <- <-. split; auto. split; auto. intros x LX. rewrite SB. destruct (EQ x LX) as [E1 E2].
        destruct (Nat.eqb_spec x j) as [->|NE].
        * split; [contradiction|]. intros _. apply E1. now left.
        * split; [intro; apply E1; now right|]. intro NI. apply E2. intros [?|?]; [congruence | contradiction].
      + intros X Y. exfalso. apply n0. apply ONE; [rewrite X; exact Y | rewrite C; reflexivity].
    - cbn [znotify z_open z_list]. intros O x LX A. pose proof (IN O x LX (MO x A)) as I0. destruct (mdisp D (mstep D (z_sub D g j) e)) eqn:DE; auto.
      apply filter_In. split; auto. rewrite SB in A. rewrite A. cbn. rewrite andb_true_r. apply negb_true_iff, Nat.eqb_neq. intros ->.
      rewrite Nat.eqb_refl in A. congruence.
    - cbn [znotify z_list]. destruct (mdisp D (mstep D (z_sub D g j) e)); auto. now apply NoDup_filter.
  Qed.
  Lemma z_unlock : forall g c tr i e r', JZ g c tr -> c i = Run e (ZD []) true -> holds r' = false -> nds r' ->
    ((is_term e = true -> z_open D g = false) -> zph (ZS D (z_open D g) (z_list D g) (z_flag D g) false (z_sub D g)) r') ->
    JZ (ZS D (z_open D g) (z_list D g) (z_flag D g) false (z_sub D g)) (upr c i r') tr.
  Proof.
    intros g c tr i e r' [H NN] C NH NR P. split; [|intro x; uc x i; auto].
    dz H. pose proof (HD i e _ true C eq_refl) as EQ. cbn in EQ. destruct EQ as (_ & OT & EQ). specialize (P OT).
    assert (NO : forall j, holds (upr c i r' j) = false).
    { intro j. uc j i; auto. destruct (holds (c j)) eqn:X; auto. exfalso. apply n0. apply ONE; auto. rewrite C. reflexivity. }
    constructor; cbn [z_open z_list z_flag z_ser z_sub]; auto.
    - intro j. uc j i; auto. specialize (PH j). destruct (c j) as [|e1 k1 l1]; auto.
    - intros a b. rewrite !NO. discriminate.
    - split; [discriminate|]. intros [j X]. rewrite NO in X. discriminate.
    - intros _ j LJ. apply EQ; auto.
    - intros j e1 k1 l1 X Y. specialize (NO j). rewrite X in NO. cbn in NO. congruence.
  Qed.

  Lemma JZ_inv : forall g c tr i e, JZ g c tr -> c i = Idle -> JZ g (upr c i (Run e Z0 false)) (tr ++ [Vis (Inv i e)]).
  Proof.
    intros g c tr i e J C. apply z_vis. destruct J as [H NN]. split; [|intro j; uc j i; [exact I | apply NN]]. dz H.
    assert (HO : forall j, holds (upr c i (Run e Z0 false) j) = holds (c j)).
    { intro j. uc j i; auto. rewrite C. reflexivity. }
    constructor; auto.
    - intro j. uc j i; [reflexivity | auto].
    - intros a b. rewrite !HO. auto.
    - rewrite LK. split; intros [j X]; exists j; [now rewrite HO | now rewrite HO in X].
    - intros j e1 k1 l1. uc j i; [intro X; injection X as <- <- <-; discriminate | exact (HD j e1 k1 l1)].
  Qed.
  Notation lmove := (@lmove zpc V).
  Definition zstepped (g' : zst D) (c : nat -> act) (tr : list (alab V)) i e k k' : Prop :=
    exists c' tr' l', lmove c c' tr tr' /\ c' i = Run e k l' /\ JZ g' (upr c' i (Run e k' l')) tr'.
  Lemma zs_plain : forall g' c tr i e k k' l, c i = Run e k l -> JZ g' (upr c i (Run e k' l)) tr -> zstepped g' c tr i e k k'.
  Proof. intros g' c tr i e k k' l C X. exists c, tr, l. split; [apply lmove_refl|]. auto. Qed.
  Lemma zs_lin : forall g' c tr i e k k', c i = Run e k false -> JZ g' (upr c i (Run e k' true)) (tr ++ [Lin i e]) -> zstepped g' c tr i e k k'.
  Proof.
    intros g' c tr i e k k' C X. exists (upr c i (Run e k true)), (tr ++ [Lin i e]), true.
    split; [now apply lmove_lin|]. split; [now rewrite upd_same|]. eapply Z_ext; [|exact X]. intro j. apply upr_twice.
  Qed.

  Lemma JZ_step : forall g c tr i e k l g' k', JZ g c tr -> c i = Run e k l -> stp g i e k = Some (g', Some k') -> zstepped g' c tr i e k k'.
  Proof.
    intros g c tr i e k l g' k' J C S. pose proof (z_ph _ _ _ (proj1 J) i) as P. rewrite C in P. cbn in P.
    destruct k as [| |s|s| | |]; cbn [zstep] in S.
    - subst l. destruct (z_flag D g); [discriminate|]. injection S as <- <-. eapply zs_plain; eauto. eapply z_pc; eauto; destruct (is_term e) eqn:T; cbn; auto.
    - destruct P as [-> T]. destruct (z_open D g) eqn:O; [|discriminate]. injection S as <- <-. eapply zs_plain; eauto.
      eapply z_pc; eauto; [cbn; split; auto; split; auto; intros; apply (z_in _ _ _ (proj1 J)); auto | cbn; apply (z_nd _ _ _ (proj1 J))].
    - destruct P as (-> & _). rewrite andb_true_r in S. destruct (z_ser D g) eqn:LF; [discriminate|]. injection S as <- <-.
      apply zs_lin; auto. now apply z_lock_step.
    - subst l. destruct s as [|j s].
      + destruct (is_term e) eqn:T; [|discriminate]. injection S as <- <-. eapply zs_plain; eauto. eapply z_unlock; eauto; cbn; auto.
      + injection S as <- <-. eapply zs_plain; eauto. now apply z_call.
    - destruct P as [-> T]. rewrite andb_true_r in S. destruct (z_ser D g) eqn:LF; [discriminate|]. injection S as <- <-.
      eapply zs_plain; eauto. now apply z_tlock_step.
    - destruct P as [-> T]. injection S as <- <-. apply zs_lin; auto. now apply z_exchange.
    - discriminate.
  Qed.
  Lemma JZ_ret : forall g c tr i e k l g', JZ g c tr -> c i = Run e k l -> stp g i e k = Some (g', None) ->
    exists c' tr', lmove c c' tr tr' /\ c' i = Run e k true /\ JZ g' (upr c' i Idle) (tr' ++ [Vis (Ret i e)]).
  Proof.
    intros g c tr i e k l g' J C S. pose proof (z_ph _ _ _ (proj1 J) i) as P. rewrite C in P. cbn in P.
    assert (GONE : l = false -> calling k = false -> z_open D g = false -> g' = g -> exists c' tr', lmove c c' tr tr' /\ c' i = Run e k true /\ JZ g' (upr c' i Idle) (tr' ++ [Vis (Ret i e)])).
    { intros -> NC O ->. exists (upr c i (Run e k true)), (tr ++ [Lin i e]). split; [now apply lmove_lin|]. split; [now rewrite upd_same|].
      apply z_vis. eapply Z_ext; [intro j; apply upr_twice|]. eapply z_pc; eauto; [apply z_dead; auto | exact I | exact I]. }
    destruct k as [| |s|s| | |]; cbn [zstep] in S.
    - destruct (z_flag D g) eqn:F; [|discriminate]. injection S as <-. apply GONE; auto. now apply (z_fl _ _ _ (proj1 J)).
    - destruct (z_open D g) eqn:O; [discriminate|]. injection S as <-. destruct P. apply GONE; auto.
    - destruct (z_ser D g && true); discriminate.
    - subst l. destruct s as [|j s]; [|discriminate]. destruct (is_term e) eqn:T; [discriminate|]. injection S as <-.
      exists c, tr. split; [apply lmove_refl|]. split; auto. apply z_vis. eapply z_unlock; eauto; try exact I. intros _; exact I.
    - destruct (z_ser D g && true); discriminate.
    - discriminate.
    - destruct P as (-> & T & O). injection S as <-. exists c, tr. split; [apply lmove_refl|]. split; auto. apply z_vis.
      assert (J2 : JZ g (upr c i Idle) tr) by (eapply z_pc; eauto; exact I). destruct J2 as [H NN]. split; auto. dz H.
      constructor; cbn [z_open z_list z_flag z_ser z_sub]; auto; intro x; specialize (PH x); destruct (upr c i Idle x) as [|e1 k1 l1]; auto.
  Qed.
  Lemma JZ_init : JZ (z_init D n d0) (fun _ => Idle) [].
  Proof.
    split; [|intro; exact I]. constructor; cbn; auto; try discriminate.
    - split; [discriminate|]. intros [i X]. discriminate.
    - intros _ j LJ _. apply in_seq. lia.
    - apply seq_NoDup.
  Qed.

  Theorem serialized_linearizable : forall progs tr c,
    gexec (cistep Z0 stp) (z_init D n d0, cthreads progs) tr c ->
    exists h, linearized progs tr h /\
      (z_ser D (fst c) = false -> forall j, j < n -> z_sub D (fst c) j = mrun D d0 (map snd h)) /\
      (gfinished c -> z_ser D (fst c) = false).
  Proof.
    intros progs tr c X.
    destruct (lin_generic Z0 stp progs JZ JZ_inv JZ_step JZ_ret (z_init D n d0) JZ_init tr c X) as (cu & tr' & E & [J _] & PR & FN).
    exists (lins tr'). split; [exists tr'; repeat split; auto|]. split; [apply (z_free _ _ _ J)|].
    intro F. destruct (z_ser D (fst c)) eqn:S; auto. apply (z_lock _ _ _ J) in S as [i H]. destruct (FN F i) as [ID _]. rewrite ID in H. discriminate.
  Qed.

  (** Mutual exclusion, seen on the threads themselves. *)
  Definition in_call (x : @citem zpc V) : bool := match x with CRun _ _ k => calling k | _ => false end.
  Lemma serialized_count : forall progs tr c,
    gexec (cistep Z0 stp) (z_init D n d0, cthreads progs) tr c ->
    count in_call (concat (snd c)) = if z_ser D (fst c) then 1 else 0.
  Proof.
    intros progs tr c X.
    pattern (fst c), (concat (snd c)), tr. eapply gexec_inv with (istep := cistep Z0 stp); [| |exact X|].
    - intros s l l' t PM E. cbn in *. now rewrite <- (count_perm in_call _ _ PM).
    - intros g it l t g' its ls E I. cbn beta in *. rewrite count_cons in E. rewrite count_app.
        destruct it as [i e|i e k]; cbn [cistep] in I.
        + injection I as <- <- <-. cbn in *. exact E.
        + destruct k as [| |s|s| | |]; cbn [zstep] in I.
          * destruct (z_flag D g); injection I as <- <- <-; cbn in *; [exact E|]. unfold count at 1. cbn. destruct (is_term e); exact E.
          * destruct (z_open D g); injection I as <- <- <-; cbn in *; exact E.
          * rewrite andb_true_r in I. destruct (z_ser D g); [discriminate|]. injection I as <- <- <-. unfold count at 1. cbn in *. lia.
          * destruct s as [|j s]; [destruct (is_term e)|]; injection I as <- <- <-; unfold count at 1; cbn in *; destruct (z_ser D g); lia.
          * rewrite andb_true_r in I. destruct (z_ser D g); [discriminate|]. injection I as <- <- <-. unfold count at 1. cbn in *. lia.
          * injection I as <- <- <-. unfold count at 1. cbn in *. destruct (z_ser D g); lia.
          * injection I as <- <- <-. cbn in *. exact E.
    - cbn [fst snd z_init z_ser]. apply count_zero_of. intros x I. apply in_concat in I as (t & I & I2). clear -I I2. unfold cthreads in I. revert I.
        generalize 0 as k. induction progs as [|p r IH]; intros k I; [destruct I|]. destruct I as [<-|I]; [|eauto].
        apply in_map_iff in I2 as (e & <- & _). reflexivity.
  Qed.
  Theorem serialized_exclusive : forall progs tr c,
    gexec (cistep Z0 stp) (z_init D n d0, cthreads progs) tr c -> count in_call (concat (snd c)) <= 1.
  Proof. intros progs tr c X. rewrite (serialized_count progs tr c X). destruct (z_ser D (fst c)); lia. Qed.
End SerP.

(** ** Progress of a serialized subject *)
Section Progress.
  Context {V : Type} (D : machine V) (n : nat) (d0 : mst D).
  Notation stp := (zstep D true).
  Definition ev_item (x : @citem zpc V) : bool := match x with CEv _ _ => true | _ => false end.
  Lemma tails : forall progs tr c, gexec (cistep Z0 stp) (z_init D n d0, cthreads progs) tr c ->
    forall t, In t (snd c) -> forallb ev_item (tl t) = true.
  Proof.
    intros progs tr c X. pattern (fst c), (snd c), tr. eapply gexec_tinv with (istep := cistep Z0 stp); [|exact X|].
    - intros s ts1 it rest ts2 tr0 s' its ls I S t IN.
      assert (R : forallb ev_item rest = true) by (apply (I (it :: rest)), in_or_app; right; now left).
      apply in_app_or in IN as [IN|[<-|IN]]; [apply I, in_or_app; now left | | apply I, in_or_app; right; now right].
      destruct it as [i e|i e k]; cbn [cistep] in S; [injection S as <- <- <-; exact R|].
      destruct (stp s i e k) as [[g' [k'|]]|]; try discriminate; injection S as <- <- <-; cbn; auto.
      destruct rest; auto. cbn in *. now apply andb_prop in R as [_ R].
    - cbn [snd]. unfold cthreads. generalize 0 as k. clear. induction progs as [|p r IH]; intros k t IN; [destruct IN|].
      destruct IN as [<-|IN]; [|eauto]. apply forallb_forall. intros x I. destruct p as [|e p]; [destruct I|]. cbn in I. apply in_map_iff in I as (y & <- & _). reflexivity.
  Qed.
  Theorem serialized_progress : forall progs tr c, gexec (cistep Z0 stp) (z_init D n d0, cthreads progs) tr c ->
    gfinished c \/ exists ls c', gstep (cistep Z0 stp) c ls c'.
  Proof.
    intros progs tr c X. pose proof (tails progs tr c X) as T.
    assert (Y : count (@in_call V) (concat (snd c)) = if z_ser D (fst c) then 1 else 0) by exact (serialized_count D n d0 progs tr c X).
    destruct c as [g ts]. cbn [fst snd] in *.
    assert (GO : forall it rest r, In (it :: rest) ts -> cistep Z0 stp g it = Some r -> exists ls c', gstep (cistep Z0 stp) (g, ts) ls c').
    { intros it rest [[g' its] ls] IN S. apply in_split in IN as (a & b & ->). exists ls, (g', a ++ (its ++ rest) :: b). now constructor. }
    destruct (z_ser D g) eqn:LK.
    - right. assert (EX : exists x, In x (concat ts) /\ in_call x = true).
      { destruct (existsb (@in_call V) (concat ts)) eqn:E; [now apply existsb_exists in E|]. exfalso.
        rewrite (count_zero_of (@in_call V)) in Y; [discriminate|]. intros x I. destruct (in_call x) eqn:Q; auto.
        assert (F : existsb (@in_call V) (concat ts) = true) by (apply existsb_exists; eauto). congruence. }
      destruct EX as (x & I & Q). apply in_concat in I as (t & I1 & I2). pose proof (T t I1) as TT. destruct t as [|y r]; [destruct I2|].
      destruct I2 as [->|I2]; [|cbn in TT; rewrite forallb_forall in TT; specialize (TT x I2); destruct x; discriminate].
      destruct x as [i e|i e k]; [discriminate|]. destruct k as [| |s|s| | |]; try discriminate; cbn in Q.
      + destruct s; [destruct (is_term e) eqn:TE|]; eapply GO; eauto; cbn; rewrite ?TE; reflexivity.
      + eapply GO; eauto. reflexivity.
    - destruct (existsb (fun t => match t with [] => false | _ => true end) ts) eqn:E.
      + right. apply existsb_exists in E as (t & I & Q). destruct t as [|x r]; [discriminate|].
        assert (HH : exists q, cistep Z0 stp g x = Some q).
        { destruct x as [i e|i e k]; [eexists; reflexivity|]. cbn [cistep].
          destruct k as [| |s|s| | |]; cbn [zstep]; rewrite ?LK; cbn [andb];
            [destruct (z_flag D g) | destruct (z_open D g) | | destruct s; [destruct (is_term e)|] | | |]; eexists; reflexivity. }
        destruct HH as [q Hq]. eapply GO; eauto.
      + left. intros t I. destruct t as [|x r]; auto. exfalso.
        assert (F : existsb (fun t : list (@citem zpc V) => match t with [] => false | _ => true end) ts = true) by (apply existsb_exists; exists (x :: r); auto). congruence.
  Qed.
End Progress.

(** ** Emission and subscription at the same time *)
Section RaceP.
  Context {V : Type} (first : list V -> list V) (mem0 vs : list V) (n : nat).
  Notation st := (@rc V).

  (** The emitting thread: a values are stored, the current one has still to be sent to [l]. *)
  Definition emitter (t : list (@ritem V)) (a b : nat) (pend : option (V * list nat)) : Prop :=
    match pend with
    | None => t = map REmit (skipn a vs) /\ b = a \/
              (exists v, a = S b /\ nth_error vs b = Some v /\ t = RSnap v :: map REmit (skipn a vs))
    | Some (v, l) => exists ln, a = b /\ t = RDel v ln l :: map REmit (skipn a vs)
    end.
  Definition owed (pend : option (V * list nat)) (i : nat) : list V :=
    match pend with Some (v, l) => if existsb (Nat.eqb i) l then [v] else [] | None => [] end.
  Definition in_list (g : st) (i : nat) : Prop := match r_list g with Some l => In i l | None => False end.
  Definition reader (g : st) (t : list (@ritem V)) (a b : nat) pend (i : nat) : Prop :=
    (t = [RSub i] /\ r_recv g i = [] /\ ~ in_list g i /\ owed pend i = []) \/
    (exists k, k <= a /\ t = [RFirst i (first (mem0 ++ firstn k vs))] /\ r_recv g i = [] /\ ~ in_list g i /\ owed pend i = []) \/
    (exists k, k <= a /\ t = [RAdd i] /\ r_recv g i = first (mem0 ++ firstn k vs) /\ ~ in_list g i /\ owed pend i = []) \/
    (exists k m, k <= S m /\ m <= b /\ t = [] /\ in_list g i /\ r_recv g i ++ owed pend i = first (mem0 ++ firstn k vs) ++ firstn (b - m) (skipn m vs)).
  Definition RI (g : st) (ts : list (list (@ritem V))) (_ : list unit) : Prop :=
    exists a b pend, a <= length vs /\ b <= a <= S b /\ length ts = S n /\ r_mem g = mem0 ++ firstn a vs /\ emitter (nth 0 ts []) a b pend /\
      match pend with Some (v, l) => NoDup l /\ forall i, In i l -> in_list g i | None => True end /\
      match r_list g with Some l => NoDup l /\ (forall i, In i l -> i < n) | None => True end /\
      forall i, i < n -> reader g (nth (S i) ts []) a b pend i.

  Lemma nth_mid : forall (ts1 ts2 : list (list (@ritem V))) t t' x,
    nth x (ts1 ++ t' :: ts2) [] = if x =? length ts1 then t' else nth x (ts1 ++ t :: ts2) [].
  Proof.
    induction ts1 as [|y r IH]; intros ts2 t t' [|x]; cbn; auto.
  Qed.
  Lemma take_more : forall b m v, m <= b -> nth_error vs b = Some v -> firstn (S b - m) (skipn m vs) = firstn (b - m) (skipn m vs) ++ [v].
  Proof.
    intros b m v LE E. replace (S b - m) with (S (b - m)) by lia.
    assert (E2 : nth_error (skipn m vs) (b - m) = Some v).
    { rewrite <- E. clear E. revert b LE. generalize vs. induction m as [|m IH]; intros l b LE; cbn [skipn]; [now rewrite Nat.sub_0_r|].
      destruct b as [|b]; [lia|]. destruct l as [|x l]; [destruct (S b - S m); reflexivity|]. cbn. apply IH. lia. }
    revert E2. generalize (b - m), (skipn m vs). intros k l. revert l. induction k as [|k IH]; intros [|x l] E2; cbn in *; try discriminate; [congruence|]. f_equal. now apply IH.
  Qed.
  Lemma skip_S : forall a v, nth_error vs a = Some v -> skipn a vs = v :: skipn (S a) vs.
  Proof.
    generalize vs. clear. intros l a. revert l. induction a as [|a IH]; intros [|x l] v E; cbn in *; try discriminate; [congruence|]. now apply IH.
  Qed.
  Lemma take_S : forall a v, nth_error vs a = Some v -> firstn (S a) vs = firstn a vs ++ [v].
  Proof.
    generalize vs. clear. intros l a. revert l. induction a as [|a IH]; intros [|x l] v E; cbn in *; try discriminate; [congruence|]. f_equal. now apply IH.
  Qed.
  Lemma skip_head : forall a v r, v :: r = skipn a vs -> nth_error vs a = Some v /\ r = skipn (S a) vs /\ S a <= length vs.
  Proof.
    generalize vs. clear. intros l a. revert l. induction a as [|a IH]; intros [|x l] v r E; cbn in *; try discriminate.
    - injection E as -> ->. split; auto. split; auto. lia.
    - destruct (IH l v r E) as (A & B & C). split; auto. split; auto. lia.
  Qed.
  Lemma existsb_in : forall (x : nat) l, existsb (Nat.eqb x) l = true <-> In x l.
  Proof.
    intros. rewrite existsb_exists. split; [intros (y & I & E); apply Nat.eqb_eq in E; now subst | intro I; exists x; split; auto; apply Nat.eqb_refl].
  Qed.
  Lemma existsb_out : forall (x : nat) l, ~ In x l -> existsb (Nat.eqb x) l = false.
  Proof. intros x l NI. destruct (existsb (Nat.eqb x) l) eqn:E; auto. apply existsb_in in E. contradiction. Qed.

  Lemma RI_step : forall g ts1 it rest ts2 tr g' its ls, RI g (ts1 ++ (it :: rest) :: ts2) tr ->
    rstep first g it = Some (g', its, ls) -> RI g' (ts1 ++ (its ++ rest) :: ts2) (tr ++ ls).
  Proof.
    intros g ts1 it rest ts2 tr g' its ls (a & b & pend & LA & AB & LT & ME & EM & PD & LS & RD) ST.
    assert (LEN : length (ts1 ++ (its ++ rest) :: ts2) = S n) by (rewrite app_length in *; cbn in *; lia).
    assert (NX : forall x, nth x (ts1 ++ (its ++ rest) :: ts2) [] = if x =? length ts1 then its ++ rest else nth x (ts1 ++ (it :: rest) :: ts2) [])
      by (intro; apply nth_mid).
    assert (NO : nth (length ts1) (ts1 ++ (it :: rest) :: ts2) [] = it :: rest) by (rewrite app_nth2, Nat.sub_diag by lia; reflexivity).
    assert (LX : length ts1 < S n) by (rewrite app_length in LT; cbn in LT; lia).
    set (ts := ts1 ++ (it :: rest) :: ts2) in *. set (ts' := ts1 ++ (its ++ rest) :: ts2) in *. clearbody ts ts'.
    destruct (length ts1) as [|x].
    - (* the emitter *)
      assert (N0 : nth 0 ts' [] = its ++ rest) by (rewrite NX; reflexivity).
      assert (NS : forall i, nth (S i) ts' [] = nth (S i) ts []) by (intro; rewrite NX; reflexivity).
      rewrite NO in EM. destruct pend as [[v l]|]; cbn [emitter] in EM.
      + destruct EM as (ln & AE & T). injection T as -> ->. destruct l as [|i l]; cbn [rstep] in ST; injection ST as <- <- <-.
        * exists a, b, None. repeat (split; [now auto|]). split; [rewrite N0; left; auto|]. split; [exact I|]. split; [exact LS|].
          intros i LI. rewrite NS. specialize (RD i LI). exact RD.
        * exists a, b, (Some (v, l)). repeat (split; [now auto|]). split; [rewrite N0; exists ln; auto|]. destruct PD as [ND IL].
          inversion ND as [|? ? N1 N2]; subst. split; [split; auto; intros; apply IL; now right|]. split; [exact LS|].
          intros j LJ. rewrite NS. specialize (RD j LJ).
          assert (OW : owed (Some (v, i :: l)) j = if j =? i then [v] else owed (Some (v, l)) j).
          { cbn. destruct (Nat.eqb_spec j i); auto. }
          assert (OI : owed (Some (v, l)) i = []) by (cbn; now rewrite existsb_out).
          destruct (Nat.eqb_spec j i) as [->|NE].
          -- destruct RD as [RD|[RD|[RD|RD]]]; [destruct RD as (_ & _ & _ & O) | destruct RD as (? & _ & _ & _ & _ & O) | destruct RD as (? & _ & _ & _ & _ & O) |].
             1-3: rewrite OW in O; discriminate.
             destruct RD as (k & m & K1 & K2 & T & IN & E). right; right; right. exists k, m. repeat (split; [now auto|]).
             cbn [r_recv]. rewrite Nat.eqb_refl, OI, app_nil_r, <- E, OW. reflexivity.
          -- unfold reader in *. rewrite OW in RD. cbn [r_recv] in *. replace (j =? i) with false by (symmetry; now apply Nat.eqb_neq). exact RD.
      + destruct EM as [[T BA]|(v & AS & E & T)].
        * subst b. destruct (skipn a vs) as [|v r] eqn:SK; [discriminate|]. injection T as -> ->. cbn [rstep] in ST. injection ST as <- <- <-.
          destruct (skip_head a v r (eq_sym SK)) as (E1 & E2 & E3).
          exists (S a), a, None. split; auto. split; [lia|]. split; auto. split; [cbn [r_mem]; rewrite ME, <- app_assoc; f_equal; symmetry; now apply take_S|].
          split; [right; exists v; rewrite N0, <- E2; auto|]. split; [exact I|]. split; [exact LS|].
          intros i LI. rewrite NS. specialize (RD i LI). destruct RD as [RD|[RD|[RD|RD]]]; [left; exact RD | right; left | right; right; left | right; right; right; exact RD].
          -- destruct RD as (k & K & R). exists k. split; [lia | exact R].
          -- destruct RD as (k & K & R). exists k. split; [lia | exact R].
        * injection T as -> ->. subst a. cbn [rstep] in ST. unfold in_list in *. destruct (r_list g) as [l|] eqn:RL; injection ST as <- <- <-.
          -- exists (S b), (S b), (Some (v, l)). split; auto. split; [lia|]. split; auto. split; auto. split; [rewrite N0; exists (length l); auto|].
             unfold in_list. rewrite RL. destruct LS as [LS1 LS2]. split; [split; auto|]. split; [split; auto|].
             intros i LI. rewrite NS. specialize (RD i LI). unfold reader, in_list in *. rewrite RL in *.
             destruct RD as [RD|[RD|[RD|RD]]]; [left | right; left | right; right; left | right; right; right].
             ++ destruct RD as (A & B & C & _). repeat split; auto. cbn. now rewrite existsb_out.
             ++ destruct RD as (k & K & A & B & C & _). exists k. repeat split; auto. cbn. now rewrite existsb_out.
             ++ destruct RD as (k & K & A & B & C & _). exists k. repeat split; auto. cbn. now rewrite existsb_out.
             ++ destruct RD as (k & m & K1 & K2 & A & B & C). exists k, m. repeat split; auto. cbn [owed] in *. apply existsb_in in B. rewrite B.
                rewrite app_nil_r in C. rewrite C, <- app_assoc. f_equal. symmetry. now apply take_more.
          -- exists (S b), (S b), None. split; auto. split; [lia|]. split; auto. split; auto. split; [rewrite N0; left; auto|].
             unfold in_list. rewrite RL. split; auto. split; auto.
             intros i LI. rewrite NS. specialize (RD i LI). unfold reader, in_list in *. rewrite RL in *.
             destruct RD as [RD|[RD|[RD|RD]]]; [left; exact RD | right; left; exact RD | right; right; left; exact RD |].
             destruct RD as (k & m & _ & _ & _ & [] & _).
    - (* a subscriber *)
      assert (N0 : nth 0 ts' [] = nth 0 ts []) by (rewrite NX; reflexivity).
      assert (NI : nth (S x) ts' [] = its ++ rest) by (rewrite NX, Nat.eqb_refl; reflexivity).
      assert (NJ : forall j, j <> x -> nth (S j) ts' [] = nth (S j) ts []).
      { intros j NE. rewrite NX. replace (S j =? S x) with false; auto. symmetry. apply Nat.eqb_neq. lia. }
      assert (LTX : x < n) by lia.
      pose proof (RD x LTX) as RX. rewrite NO in RX. destruct RX as [RX|[RX|[RX|RX]]].
      + destruct RX as (T & RV & IL & OW). injection T as -> ->. cbn [rstep] in ST. injection ST as <- <- <-.
        exists a, b, pend. repeat (split; [now auto|]). split; [now rewrite N0|]. split; auto. split; auto.
        intros i LI. destruct (Nat.eq_dec i x) as [->|NE]; [|rewrite NJ; auto]. rewrite NI. right; left. exists a. rewrite <- ME. repeat split; auto.
      + destruct RX as (k & K & T & RV & IL & OW). injection T as -> ->. cbn [rstep] in ST. injection ST as <- <- <-.
        exists a, b, pend. repeat (split; [now auto|]). split; [now rewrite N0|]. split; auto. split; auto.
        intros i LI. destruct (Nat.eq_dec i x) as [->|NE].
        * rewrite NI. right; right; left. exists k. cbn [r_recv]. rewrite Nat.eqb_refl, RV. repeat split; auto.
        * rewrite NJ by auto. specialize (RD i LI). unfold reader, in_list in *. cbn [r_recv r_list]. replace (i =? x) with false by (symmetry; now apply Nat.eqb_neq). exact RD.
      + destruct RX as (k & K & T & RV & IL & OW). injection T as -> ->. cbn [rstep] in ST. injection ST as <- <- <-.
        set (nl := match r_list g with Some l => l ++ [x] | None => [x] end).
        assert (IN : forall i, In i nl <-> in_list g i \/ i = x).
        { intro i. unfold nl, in_list. destruct (r_list g) as [l|]; [rewrite in_app_iff|]; cbn; intuition congruence. }
        exists a, b, pend. repeat (split; [now auto|]). split; [now rewrite N0|]. split.
        { destruct pend as [[v l]|]; auto. destruct PD as [P1 P2]. split; auto. intros i H. apply IN. left. auto. }
        split.
        { unfold in_list in IL. cbn [r_list]. split.
          - unfold nl. destruct (r_list g) as [l|]; [|repeat constructor; auto]. destruct LS as [LS1 LS2].
            clear - LS1 IL. induction l as [|y l IH]; cbn; [repeat constructor; auto|]. inversion LS1 as [|? ? N1 N2]; subst. constructor.
            + rewrite in_app_iff. intros [H|[H|[]]]; auto. apply IL. now left.
            + apply IH; auto. intro. apply IL. now right.
          - intros i H. apply IN in H as [H|H]; [|lia]. unfold in_list in H. destruct (r_list g) as [l|]; [now apply LS | destruct H]. }
        intros i LI. destruct (Nat.eq_dec i x) as [->|NE].
        * rewrite NI. right; right; right. exists k, b. split; [lia|]. split; auto. split; auto. split; [apply IN; auto|].
          cbn [r_recv]. rewrite RV, OW, Nat.sub_diag. reflexivity.
        * rewrite NJ by auto. specialize (RD i LI). unfold reader in *. cbn [r_recv].
          assert (SAME : in_list (RC (r_mem g) (Some nl) (r_ub g) (r_recv g)) i <-> in_list g i).
          { change (In i nl <-> in_list g i). rewrite IN. intuition congruence. }
          destruct RD as [RD|[RD|[RD|RD]]]; [left | right; left | right; right; left | right; right; right].
          -- destruct RD as (A & B & C & E). repeat (split; auto). now rewrite SAME.
          -- destruct RD as (k1 & K1 & A & B & C & E). exists k1. repeat (split; auto). now rewrite SAME.
          -- destruct RD as (k1 & K1 & A & B & C & E). exists k1. repeat (split; auto). now rewrite SAME.
          -- destruct RD as (k1 & m1 & K1 & K2 & A & B & E). exists k1, m1. repeat (split; auto). now rewrite SAME.
      + destruct RX as (k & m & _ & _ & T & _). discriminate.
  Qed.

  Theorem race_order : forall tr c, gexec (rstep first) (r_init mem0, r_threads vs n) tr c -> gfinished c ->
    forall i, i < n -> exists k m, k <= S m /\ m <= length vs /\ r_recv (fst c) i = first (mem0 ++ firstn k vs) ++ skipn m vs.
  Proof.
    intros tr c X F i LI.
    assert (R : RI (fst c) (snd c) tr).
    { eapply gexec_tinv with (istep := rstep first) (Inv := RI); [|exact X|].
      - intros. eapply RI_step; eauto.
      - exists 0, 0, None. cbn [fst snd r_init r_mem firstn]. split; [lia|]. split; [lia|]. split; [unfold r_threads; cbn; now rewrite map_length, seq_length|].
        split; [now rewrite app_nil_r|]. split; [left; auto|]. split; [exact I|]. split; [exact I|].
        intros j LJ. left. cbn [r_threads nth]. repeat split; auto.
        rewrite (nth_indep _ [] [RSub 0]) by (rewrite map_length, seq_length; auto). rewrite (map_nth (fun i => [RSub i])), seq_nth by auto. reflexivity. }
    destruct R as (a & b & pend & LA & AB & LT & ME & EM & PD & LS & RD). specialize (RD i LI).
    assert (E : forall x, nth x (snd c) [] = []).
    { intro x. destruct (nth_in_or_default x (snd c) []) as [H|H]; auto. }
    rewrite E in EM, RD. destruct RD as [RD|[RD|[RD|RD]]]; try (destruct RD as (? & ? & ? & _); discriminate); try (destruct RD as (? & _); discriminate).
    destruct RD as (k & m & K1 & K2 & _ & _ & R).
    destruct pend as [[v l]|]; cbn [emitter] in EM; [destruct EM as (ln & _ & Q); discriminate|].
    destruct EM as [[Q ->]|(v & _ & _ & Q)]; [|discriminate].
    assert (AL : a = length vs).
    { destruct (skipn a vs) as [|v r] eqn:SK; [|discriminate]. assert (length (skipn a vs) = 0) by now rewrite SK. rewrite skipn_length in H. lia. }
    subst a. exists k, m. split; auto. split; auto. cbn [owed] in R. rewrite app_nil_r in R. rewrite R. f_equal.
    apply firstn_all2. rewrite skipn_length. lia.
  Qed.
End RaceP.
