(** C06 - C12: disposables. *)
From Coq Require Import Permutation.
From Verif Require Import Base CompositeSpec CompositeModel CompositeProofs Concur
  OnceModel OnceProofs RefcountModel RefcountProofs StaticModel StaticSpec StaticProofs.

(** Concrete executions of the composite: the schedule names the thread to step. *)
Fixpoint c_sched acts cap (sched : list nat) (c : config) : option (list label * config) :=
  match sched with
  | [] => Some ([], c)
  | i :: r =>
      match split_at (snd c) i with
      | Some (a, it :: rest, b) =>
          let '(s', its, ls) := istep acts cap (fst c) it in
          match c_sched acts cap r (s', a ++ (its ++ rest) :: b) with
          | Some (tr, c') => Some (ls ++ tr, c')
          | None => None
          end
      | _ => None
      end
  end.
Lemma c_sched_sound : forall acts cap sched c tr c', c_sched acts cap sched c = Some (tr, c') -> exec acts cap c tr c'.
Proof.
  induction sched as [|i r IH]; intros c tr c' E; cbn in E.
  - inversion E. constructor.
  - destruct c as [s ts]. cbn [fst snd] in E. destruct (split_at ts i) as [[[a [|it rest]] b]|] eqn:Q; try discriminate.
    apply split_at_ok in Q. subst. destruct (istep acts cap s it) as [[s' its] ls] eqn:I.
    destruct (c_sched acts cap r (s', a ++ (its ++ rest) :: b)) as [[tr' c2]|] eqn:R; inversion E; subst.
    eapply exec_app; [|eauto]. replace ls with ([] ++ ls) by reflexivity.
    econstructor; [constructor|]. now constructor.
Qed.

(** C06. A child whose add returned, that nobody ever removes, is disposed once dispose
    was called and all calls returned - whatever the disposal actions of the children
    do to the composite, for every capacity and interleaving. *)
Theorem C06_nothing_survives : forall acts cap progs tr c k kd d,
  exec acts cap (c_init progs) tr c -> finished c ->
  In (LInv kd ODispose) tr -> In (LRet k (OAdd d) true) tr -> d <> self ->
  (forall j, ~ In (LInv j (ORemove d)) tr) ->
  disposed_in tr d.
Proof. exact nothing_survives. Qed.
Print Assumptions C06_nothing_survives.

(** The composite never disposes a child before somebody called clear or dispose. *)
Theorem C06_no_premature : forall acts cap progs tr c t1 k d t2,
  exec acts cap (c_init progs) tr c -> tr = t1 ++ LKill k d :: t2 ->
  exists j, In (LInv j OClear) t1 \/ In (LInv j ODispose) t1.
Proof. exact no_premature. Qed.
Print Assumptions C06_no_premature.

(** Two threads, one adding two children while the other disposes in between. *)
Definition ex_sched := repeat 0 7 ++ repeat 1 5 ++ repeat 0 3.
Example C06_ex : exists tr c, exec (fun _ => []) None (c_init [[OAdd 1; OAdd 2]; [ODispose]]) tr c /\ finished c /\
  tr = [LInv 0 (OAdd 1); LRet 0 (OAdd 1) true; LInv 1 (OAdd 2); LInv 2 ODispose; LKill 2 1; LRet 2 ODispose true;
        LKill 1 2; LRet 1 (OAdd 2) true].
Proof.
  eexists. eexists. split; [|split].
  - apply (c_sched_sound (fun _ => []) None ex_sched). vm_compute. reflexivity.
  - intros t [<-|[<-|[]]]; reflexivity.
  - reflexivity.
Qed.

(** C07. *)
Theorem C07_late_add : forall acts cap progs c t1 k1 b1 t2 k2 d t3 b2 t4,
  exec acts cap (c_init progs)
    (t1 ++ LRet k1 ODispose b1 :: t2 ++ LInv k2 (OAdd d) :: t3 ++ LRet k2 (OAdd d) b2 :: t4) c ->
  d <> self ->
  disposed_in (t1 ++ LRet k1 ODispose b1 :: t2 ++ LInv k2 (OAdd d) :: t3) d.
Proof. exact late_add. Qed.
Print Assumptions C07_late_add.

Theorem C07_disposed_forever : forall acts cap progs tr c k b,
  exec acts cap (c_init progs) tr c -> In (LRet k ODispose b) tr -> sh_st (fst c) = CDisposed.
Proof. exact disposed_forever. Qed.
Print Assumptions C07_disposed_forever.

Theorem C07_no_reference_kept : forall acts cap progs tr c tr' c',
  exec acts cap (c_init progs) tr c -> sh_st (fst c) = CDisposed -> exec acts cap c tr' c' ->
  sh_st (fst c') = CDisposed /\ incl (sh_kids (fst c')) (sh_kids (fst c)).
Proof. exact no_new_kids. Qed.
Print Assumptions C07_no_reference_kept.

Example C07_ex : exists c, exec (fun _ => []) None (c_init [[ODispose; OAdd 5]])
  [LInv 0 ODispose; LRet 0 ODispose true; LInv 1 (OAdd 5); LKill 1 5; LRet 1 (OAdd 5) true] c /\
  sh_st (fst c) = CDisposed /\ sh_kids (fst c) = [].
Proof.
  eexists. split. apply (c_sched_sound (fun _ => []) None (repeat 0 9)). vm_compute. reflexivity. split; reflexivity.
Qed.

(** C08: any number of threads each calling dispose any number of times; the callback may
    itself call dispose on its own disposable. *)
Theorem C08_at_most_once : forall nested threads tr c,
  gexec (once_step nested) (once_init threads) tr c -> count is_lrun tr <= 1.
Proof. exact once_at_most. Qed.
Print Assumptions C08_at_most_once.

Theorem C08_exactly_once : forall nested threads tr c,
  gexec (once_step nested) (once_init threads) tr c -> gfinished c -> In OLRet tr ->
  count is_lrun tr = 1.
Proof. exact once_exactly. Qed.
Print Assumptions C08_exactly_once.

Example C08_ex : exists tr c, gexec (once_step 2) (once_init [2; 1]) tr c /\ gfinished c /\ In OLRet tr.
Proof.
  eexists. eexists. split. apply (grun_sound (once_step 2) [0;1;0;1;0;0;0;0;0;0;0]). vm_compute. reflexivity.
  split. intros t [<-|[<-|[]]]; reflexivity. cbn. auto.
Qed.

(** A concurrent second caller may return before the callback ran: dispose() returning
    does not mean that the action has happened. *)
Theorem C08_second_caller_may_return_first : exists tr c,
  gexec (once_step 0) (once_init [1; 1]) tr c /\ In OLRet tr /\ count is_lrun tr = 0.
Proof.
  eexists. eexists. split. apply (grun_sound (once_step 0) [0;1;1]). vm_compute. reflexivity.
  split; [now left|reflexivity].
Qed.
Print Assumptions C08_second_caller_may_return_first.

(** With one thread, no call of dispose() returns before the callback has been called. *)
Theorem C08_returned_means_ran : forall nested n tr c,
  gexec (once_step nested) (once_init [n]) tr c -> forall a b, tr = a ++ OLRet :: b -> In OLRun a.
Proof.
  intros nested n tr c X.
  set (Inv := fun (s : once_state) (ts : list (list once_item)) (tr : list once_label) =>
    (forall a b, tr = a ++ OLRet :: b -> In OLRun a) /\
    exists l, ts = [l] /\ (In OLRun tr \/ (s = false /\ forall x, In x l -> x = OCall) \/ exists r, l = ORun :: r)).
  assert (I : Inv (fst c) (snd c) tr).
  { refine (gexec_tinv (once_step nested) Inv _ _ _ _ X _).
    - intros s ts1 it rest ts2 t s' its ls (P & l & E & Q) S. destruct ts1 as [|x ts1]; [|now destruct ts1].
      injection E as <- ->. split.
      + intros a b T. destruct it; cbn in S.
        * destruct s; injection S as <- <- <-; rewrite app_nil_r in T; eauto.
        * injection S as <- <- <-. destruct b as [|y b _] using rev_ind; [apply app_inj_tail in T as (_ & T); discriminate T|].
          rewrite app_comm_cons, app_assoc in T. apply app_inj_tail in T as (T & _). eauto.
        * injection S as <- <- <-. destruct b as [|y b _] using rev_ind.
          -- apply app_inj_tail in T as (<- & _). destruct Q as [Q|[(_ & Q)|(r & Q)]]; auto; [|discriminate Q].
             discriminate (Q ORet (or_introl eq_refl)).
          -- rewrite app_comm_cons, app_assoc in T. apply app_inj_tail in T as (T & _). eauto.
      + eexists. split; [reflexivity|]. destruct Q as [Q|[(-> & Q)|(r & Q)]]; [left; apply in_or_app; auto| |].
        * rewrite (Q it (or_introl eq_refl)) in S. cbn in S. injection S as <- <- <-. right. right. eexists. reflexivity.
        * injection Q as -> ->. cbn in S. injection S as <- <- <-. left. apply in_or_app. right. now left.
    - split; [intros a b T; destruct a; discriminate T|]. exists (repeat OCall n). split; auto. right. left. split; auto.
      intros x H. now apply repeat_spec in H. }
  destruct I as (P & _). exact P.
Qed.
Print Assumptions C08_returned_means_ran.

(** C09: linearizability. *)
Theorem C09_linearizable : forall acts cap progs tr c, exec acts cap (c_init progs) tr c ->
  exists atr a,
    erase atr = tr /\ lin_points_inside atr /\ spec_run cap a_init atr a /\
    a_dead a = match sh_st (fst c) with CDisposed => true | _ => false end /\
    a_gone a = sh_gone (fst c) /\
    (sh_st (fst c) = CNone -> a_kids a = sh_kids (fst c)) /\
    (finished c -> a_kids a = sh_kids (fst c) /\ forall k d, In (k, d) (a_owed a) -> In d (a_gone a)).
Proof. exact linearizable. Qed.
Print Assumptions C09_linearizable.

(** Program points reading or writing the child list. *)
Definition uses_kids (it : item) : bool :=
  match it with
  | IAddPush _ _ | IRemDo _ _ | IClrLoop _ _ | IClrClear _ | IDspLoop _ _ | IDspClear _ => true
  | _ => false
  end.
Theorem C09_mutual_exclusion : forall acts cap progs tr s ts1 i1 r1 ts2 i2 r2 ts3,
  exec acts cap (c_init progs) tr (s, ts1 ++ (i1 :: r1) :: ts2 ++ (i2 :: r2) :: ts3) ->
  ~ (uses_kids i1 = true /\ uses_kids i2 = true).
Proof.
  intros acts cap progs tr s ts1 i1 r1 ts2 i2 r2 ts3 E [A B].
  apply (exclusive _ _ _ _ _ _ _ _ _ _ _ _ E).
  split; [destruct i1|destruct i2]; cbn in *; auto; discriminate.
Qed.
Print Assumptions C09_mutual_exclusion.
(** ... and these are the only ones that change it. *)
Theorem C09_only_those_write : forall acts cap s it s' its ls,
  istep acts cap s it = (s', its, ls) -> uses_kids it = false -> sh_kids s' = sh_kids s.
Proof.
  intros acts cap s it s' its ls E U.
  destruct it as [[]| | | | | | | | | | | | | | | |]; cbn [uses_kids] in U; try discriminate; cbn [istep] in E;
  unfold kill in E;
  repeat match type of E with
  | context [if ?b then _ else _] => destruct b
  | context [match sh_st s with _ => _ end] => destruct (sh_st s)
  end; inversion E; subst; reflexivity.
Qed.
Print Assumptions C09_only_those_write.

Example C09_ex : exists tr s ts1 i1 r1 ts2 i2 r2 ts3,
  exec (fun _ => []) None (c_init [[OAdd 1]; [OAdd 2]]) tr (s, ts1 ++ (i1 :: r1) :: ts2 ++ (i2 :: r2) :: ts3) /\
  uses_kids i1 = true /\ sh_st s = CEdit.
Proof.
  exists [LInv 0 (OAdd 1); LInv 1 (OAdd 2)], (Shared CEdit [] [] 2), [], (IAddPush 0 1), [], [], (IAddCas 1 2), [], [].
  split; [|split; reflexivity]. apply (c_sched_sound (fun _ => []) None [0;1;0;1;0;1]). vm_compute. reflexivity.
Qed.

(** C10. clear() disposes the children while holding the Edit state, so a child whose
    disposal touches the composite spins forever: one thread, one child whose action
    disposes the composite; the configuration reached can never change again although
    the program is not finished. *)
Theorem C10_clear_reentrancy_refuted : exists acts progs tr c,
  exec acts None (c_init progs) tr c /\ ~ finished c /\
  forall tr' c', exec acts None c tr' c' -> c' = c /\ tr' = [].
Proof.
  exists (fun d => if d =? 1 then [ODispose] else []), [[OAdd 1; OClear]].
  eexists. eexists. split; [|split].
  - apply (c_sched_sound (fun d => if d =? 1 then [ODispose] else []) None (repeat 0 9)). vm_compute. reflexivity.
  - intro F. specialize (F _ (or_introl eq_refl)). discriminate.
  - match goal with |- forall tr' c', exec _ _ ?c _ _ -> _ => set (c0 := c) end.
    intros tr' c' E. remember c0 as c1 eqn:Q. induction E as [|c tr' c1 ls c2 E IH S]; auto.
    destruct (IH Q) as [-> ->]. subst c. clear E IH. remember c0 as c1 eqn:W. destruct S as [s ts1 it rest ts2 s' its ls I].
    unfold c0 in W. injection W as W1 W2. destruct ts1 as [|x [|y ts1]]; cbn [app] in W2; try discriminate.
    injection W2 as W2 W3 W4. subst. cbn in I. inversion I; subst. split; reflexivity.
Qed.
Print Assumptions C10_clear_reentrancy_refuted.

(** When disposal actions do not touch the composite, or nobody calls clear, an
    unfinished execution always has a thread that is not waiting.
    Missing for the full claim: the refuted case above. *)
Theorem C10_never_stuck_partial : forall acts cap progs tr c,
  ((forall d, acts d = []) \/
   ((forall p, In p progs -> ~ In OClear p) /\ forall d, ~ In OClear (acts d))) ->
  exec acts cap (c_init progs) tr c -> ~ finished c ->
  exists s ts1 it rest ts2, c = (s, ts1 ++ (it :: rest) :: ts2) /\ spinning s it = false.
Proof. exact progress. Qed.
Print Assumptions C10_never_stuck_partial.

(** ... and for passive children the number of non-waiting steps is bounded, so all
    calls return under every fair schedule. *)
Theorem C10_terminates_partial : forall cap progs, exists bound, forall n c,
  exec_n (fun _ => []) cap (c_init progs) n c -> n <= bound.
Proof. exact terminates. Qed.
Print Assumptions C10_terminates_partial.

Example C10_ex : exists tr c, exec (fun d => if d =? 1 then [ORemove 1; OAdd 2] else []) None
  (c_init [[OAdd 1; ODispose]]) tr c /\ finished c /\ In (LKill 1 1) tr /\ In (LKill 3 2) tr.
Proof.
  eexists. eexists. split; [|split].
  - apply (c_sched_sound (fun d => if d =? 1 then [ORemove 1; OAdd 2] else []) None (repeat 0 17)). vm_compute. reflexivity.
  - intros t [<-|[]]. reflexivity.
  - cbn. tauto.
Qed.

(** C11. At every moment of every execution: a refcount not disposed directly is
    disposed only if some reference was taken and the user disposed all of those. *)
Theorem C11_not_early : forall progs tr s ts, gexec r_step (r_init progs) tr (s, ts) ->
  r_dead s = true -> ~ In LDirect tr ->
  (exists i, In (LTake i) tr) /\ forall i, In (LTake i) tr -> In (LRef i) tr.
Proof. exact not_early. Qed.
Print Assumptions C11_not_early.

(** When all calls returned: disposed exactly in that case. *)
Theorem C11_exactly_when : forall progs tr s ts, gexec r_step (r_init progs) tr (s, ts) ->
  gfinished (s, ts) ->
  (r_dead s = true <->
   In LDirect tr \/ ((exists i, In (LTake i) tr) /\ forall i, In (LTake i) tr -> In (LRef i) tr)).
Proof.
  intros progs tr s ts X F. split; [|exact (eventually progs tr s ts X F)].
  intro D. destruct (In_dec (fun a b : rlabel => ltac:(decide equality; apply Nat.eq_dec)) LDirect tr) as [Y|Y]; auto.
  right. exact (not_early progs tr s ts X D Y).
Qed.
Print Assumptions C11_exactly_when.

(** Disposal of the refcount disposes every reference; while it is alive a reference is
    disposed only by its user. *)
Theorem C11_references_follow : forall progs tr s ts, gexec r_step (r_init progs) tr (s, ts) ->
  gfinished (s, ts) -> forall i, In (LTake i) tr ->
  (In i (r_idead s) <-> In (LRef i) tr \/ r_dead s = true).
Proof.
  intros progs tr s ts X F i T. split.
  - exact (ref_alive progs tr s ts X i T).
  - intros [R|D]; [|exact (all_disposed progs tr s ts X F D i T)].
    pose proof (why progs tr s ts X) as W. rewrite (done s ts F) in W.
    destruct (y_ref _ _ _ W i R) as [Q|Q]; auto. rewrite count_nil in Q. lia.
Qed.
Print Assumptions C11_references_follow.

(** References requested after the disposal are empty: nothing is counted any more. *)
Theorem C11_late_refs_empty : forall progs tr s ts, gexec r_step (r_init progs) tr (s, ts) ->
  gfinished (s, ts) -> r_dead s = true ->
  forall progs' tr' c', gexec r_step (s, map (map RUser) progs') tr' c' -> forall i, ~ In (LTake i) tr'.
Proof.
  intros progs tr s ts X F D progs' tr' [s' ts'] X'.
  exact (proj2 (no_more_refs s _ tr' s' ts' (dead_cnt progs tr s ts X F D) X')).
Qed.
Print Assumptions C11_late_refs_empty.

(** Two threads take a reference each; one reference is disposed twice, then both. *)
Definition rex_progs := [[UAddRef; UDisposeRef 0; UDisposeRef 0]; [UAddRef; UDisposeRef 1]].
Definition rex_sched := [0;1;0;1;0;1;0;1;0;1;0;1;1; 0;0;0;0;0] ++ repeat 1 11.
Example C11_ex : match grun r_step rex_sched (r_init rex_progs) with
  | Some (tr, c) => snd c = [[]; []] /\ r_dead (fst c) = true /\ In (LTake 0) tr /\ In (LTake 1) tr /\ ~ In LDirect tr
  | None => False
  end.
Proof. vm_compute. repeat split; try tauto. intro H. repeat destruct H as [H|H]; try discriminate. contradiction. Qed.

(** C12. *)
Theorem C12_bounded_list : forall count ops,
  exists c, c_run count ops = Some (c, b_disposed (fold_left (b_op count) ops (BState [] [] [])),
                                       b_oks (fold_left (b_op count) ops (BState [] [] []))) /\
            c_elems c = b_elems (fold_left (b_op count) ops (BState [] [] [])).
Proof. exact container_refines. Qed.
Print Assumptions C12_bounded_list.

(** Move assignment onto a freshly constructed container transfers the elements. *)
Theorem C12_move_to_fresh : forall count ops c disp oks,
  c_run count ops = Some (c, disp, oks) ->
  exists c1 c2, c_move (cont_init count) c = Fine (c1, c2) /\ c_elems c1 = c_elems c /\ c_elems c2 = [].
Proof.
  intros count ops c disp oks R. destruct (run_rep count ops) as (l & c' & d' & o' & R' & P).
  rewrite R in R'. inversion R'; subst. rewrite (rep_elems _ _ _ P). exact (move_into_empty _ _ _ P).
Qed.
Print Assumptions C12_move_to_fresh.

(** Finding: move assignment onto a container that holds elements constructs objects
    over living ones (their destructors never run: the references leak). *)
Theorem C12_move_to_used_is_ub : exists c d, c_push 2 (cont_init 2) 1 = Fine c /\ c_push 2 (cont_init 2) 2 = Fine d /\
  c_move c d = UB.
Proof. eexists. eexists. repeat split; reflexivity. Qed.
Print Assumptions C12_move_to_used_is_ub.

Example C12_ex : exists c, c_run 2 [CPush 1; CPush 2; CPush 3; CDisposeAll; CRemove 1; CPush 4] =
  Some (c, [1; 2], [true; true; false; true]) /\ c_elems c = [2; 4].
Proof. eexists. split; reflexivity. Qed.
