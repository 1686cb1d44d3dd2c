(** Theorems C13 - C18, C20 (current_thread and immediate). *)
From Coq Require Import ZArith Permutation Lia.
From Verif Require Import Base QueueSpec QueueModel QueueProofs SchedSpec SchedModel SchedProofs SchedOrder SchedAlive SchedPeriod SchedSlept.
Open Scope Z_scope.

Lemma srun_sound : forall kind beh onerr cs c tr c', srun kind beh onerr cs c = (tr, c') -> sexec kind beh onerr c tr c'.
Proof.
  intros kind beh onerr cs c. unfold srun.
  assert (G : forall cs tr0 c0, sexec kind beh onerr c tr0 c0 ->
    forall tr c', fold_left (srun1 kind beh onerr) cs (tr0, c0) = (tr, c') -> sexec kind beh onerr c tr c').
  { clear cs. induction cs as [|x cs IH]; cbn; intros tr0 [s stk] X tr c' E; [now injection E as <- <-|].
    destruct x as [|dt|h]; cbn in E.
    - destruct stk as [|it rest]; [eapply IH; eauto|]. destruct (tstep kind beh onerr s it) as [[s' its] ls] eqn:T.
      eapply IH; [|exact E]. eapply SSnoc; eauto. now constructor.
    - eapply IH; [|exact E]. rewrite <- (app_nil_r tr0). eapply SSnoc; eauto. constructor. lia.
    - eapply IH; [|exact E]. eapply SSnoc; eauto. constructor. }
  intros tr c' E. eapply G; eauto. constructor.
Qed.

(** ** C13 *)

(** For every sequence of operations that the specification defines, the linked list
    yields the same tasks; it is empty exactly when nothing waits. *)
Theorem C13_queue_order : forall ops n w out, q_spec ops = Some (n, w, out) ->
  exists q, q_run ops = Some (q, out) /\ q_is_empty q = (match w with [] => true | _ => false end).
Proof. exact queue_ok. Qed.
Print Assumptions C13_queue_order.
(** Equal times, a later earlier one, and a repeated task. *)
Example C13_case : q_spec [QNew 5; QNew 3; QNew 5; QNew 3; QPop; QAgain 1 5; QPop; QPop; QPop; QPop] = Some (4%nat, [], [1; 3; 0; 2; 1]%nat).
Proof. vm_compute. reflexivity. Qed.

(** What [first_min] means: smallest due time, first submitted among equals, the rest kept. *)
Theorem C13_first_min_meaning : forall w x r, first_min w = Some (x, r) ->
  exists a b, w = a ++ x :: b /\ r = a ++ b /\ (forall y, In y a -> fst x < fst y) /\ (forall y, In y b -> fst x <= fst y).
Proof.
  induction w as [|z w IH]; cbn [first_min]; intros x r E; [discriminate|].
  destruct (first_min w) as [[y r']|] eqn:F.
  - destruct (IH _ _ eq_refl) as (a & b & -> & -> & A & B).
    destruct (Z.ltb_spec (fst y) (fst z)); injection E as <- <-.
    + exists (z :: a), b. repeat split; auto. intros u [<- | Hu]; auto.
    + exists [], (a ++ y :: b). repeat split; auto; [contradiction|].
      intros u Hu. apply in_app_or in Hu. destruct Hu as [Hu | [<- | Hu]]; [apply A in Hu | | apply B in Hu]; lia.
  - injection E as <- <-. exists [], []. repeat split; auto; try contradiction.
    pose proof (first_min_sort w) as S1. rewrite F in S1. now subst.
Qed.
Print Assumptions C13_first_min_meaning.

(** ** Examples: programs *)

(** Task 0 schedules task 1 (every 10, "from this time point") and task 2 (due later). *)
Definition ex_kind (c : nat) : skind := match c with 1%nat => KThis | 3%nat => KTo | _ => KNow end.
Definition ex_beh (c n : nat) : list act * sres :=
  match c, n with
  | 0%nat, _ => ([ASched CT 0 1%nat 7; ASched IMM 3 2%nat 8; ASched CT 1 2%nat 8; ADispose 9; ASched CT 2 2%nat 9], RStop)
  | 1%nat, 0%nat | 1%nat, 1%nat | 1%nat, 2%nat => ([], RAgain 10)
  | 2%nat, 0%nat => ([], RThrow)
  | _, _ => ([], RStop)
  end.
Definition ex_onerr (h : nat) : list act := [ASched CT 4 5%nat 11].
Definition ex_run := srun ex_kind ex_beh ex_onerr (repeat CRun 100) (s_init 0 [ASched CT 0 0%nat 6]).
Definition ex_starts := flat_map (fun e => match snd e with EStart w id => [(fst e, w, Z.of_nat id)] | _ => [] end) (fst ex_run).

(** ** C14 *)

(** Full statement: never before the due time.  It fails for "from this time point"
    repetition on current_thread: drain_queue repeats a task without updating its time
    point (current_thread.hpp:115-134), so the third and later runs do not wait. *)
Definition C14_claim : Prop := forall kind beh onerr t0 prog tr c a t w id b,
  sexec kind beh onerr (s_init t0 prog) tr c -> tr = a ++ (t, EStart w id) :: b ->
  exists k x, due a id = Some (k, x) /\ x <= t.
Theorem C14_not_before_due_refuted : ~ C14_claim.
Proof.
  intros C.
  assert (X := srun_sound ex_kind ex_beh ex_onerr (repeat CRun 100) (s_init 0 [ASched CT 0 0%nat 6]) (fst ex_run) (snd ex_run)).
  specialize (X ltac:(vm_compute; reflexivity)).
  assert (E : fst ex_run = firstn 39 (fst ex_run) ++ (20, EStart CT 1%nat) :: skipn 40 (fst ex_run)) by (vm_compute; reflexivity).
  destruct (C _ _ _ _ _ _ _ _ _ _ _ _ X E) as (k & x & A & B).
  vm_compute in A. injection A as <- <-. apply B. reflexivity.
Qed.
Print Assumptions C14_not_before_due_refuted.

(** Everything else never starts early: immediate; and on current_thread every task
    that does not repeat "from this time point", and one that does until it has been
    repeated while the queue was empty. *)
Theorem C14_not_before_due_partial : forall kind beh onerr t0 prog tr c a t w id b,
  sexec kind beh onerr (s_init t0 prog) tr c -> tr = a ++ (t, EStart w id) :: b ->
  exists k x, due a id = Some (k, x) /\ (w = IMM \/ k <> KThis \/ ~ rerun_in a id -> x <= t).
Proof.
  intros kind beh onerr t0 prog tr c a t w id b X E.
  destruct (start_due _ _ _ _ _ _ _ _ _ _ _ _ X E) as (k & x & A & B). exists k, x. split; auto.
  intros [-> | [C | C]].
  - destruct (start_due_imm _ _ _ _ _ _ _ _ _ _ _ X E) as (k2 & x2 & A2 & B2). congruence.
  - destruct B as [B | [B _]]; [auto | contradiction].
  - destruct B as [B | [_ B]]; [auto | contradiction].
Qed.
Print Assumptions C14_not_before_due_partial.
(** Starts of the example program, with delays, a nested immediate task and repetitions. *)
Example C14_case : ex_starts = [(0, CT, 0); (3, IMM, 2); (3, CT, 1); (4, CT, 4); (7, CT, 3); (8, CT, 6); (10, CT, 1); (20, CT, 1); (20, CT, 1)].
Proof. vm_compute. reflexivity. Qed.

(** ** C15 *)

(** Current_thread tasks never nest; a task that starts was scheduled by code that has
    returned; when control is back in the outermost program, every task ever scheduled
    (on either scheduler) is over. *)
Theorem C15_trampolining : forall kind beh onerr t0 prog tr c,
  sexec kind beh onerr (s_init t0 prog) tr c ->
  (forall a t id b, tr = a ++ (t, EStart CT id) :: b -> running a = None) /\
  (forall a t id r b, tr = a ++ (t, EEnd CT id r) :: b -> running a = Some id) /\
  (forall s rest w id, c = (s, map IAct rest) -> called_in tr w id -> finished_in tr id).
Proof.
  intros kind beh onerr t0 prog tr c X. split; [|split].
  - intros a t id b E. eapply start_order; eauto.
  - intros a t id r b E. eapply end_running; eauto.
  - intros s rest w id -> C. eapply returned_all; eauto.
Qed.
Print Assumptions C15_trampolining.
Example C15_case : snd (snd ex_run) = map IAct [] /\ called_in (fst ex_run) CT 6 /\ running (firstn 12 (fst ex_run)) = Some 0%nat.
Proof. split; [vm_compute; reflexivity|]. split; [|vm_compute; reflexivity]. exists 4, 11%nat, KNow, 4. left. vm_compute. tauto. Qed.

(** ** C16 *)

(** Tasks leave the queue in (due time, submission) order and start only when picked,
    or when nothing waits. *)
Theorem C16_queue_order : forall kind beh onerr t0 prog tr c,
  sexec kind beh onerr (s_init t0 prog) tr c ->
  (forall a t id b, tr = a ++ (t, EPick id) :: b -> exists tp r, first_min (pending a) = Some ((tp, id), r)) /\
  (forall a t id b, tr = a ++ (t, EStart CT id) :: b -> picked a = Some id \/ pending a = []).
Proof.
  intros kind beh onerr t0 prog tr c X. split.
  - intros a t id b E. eapply pick_min; eauto.
  - intros a t id b E. eapply start_order; eauto.
Qed.
Print Assumptions C16_queue_order.

(** So picks are in nondecreasing due time as long as nothing earlier is submitted. *)
Theorem C16_nondecreasing : forall kind beh onerr t0 prog tr c a t1 i b t2 j d tp1 r1 tp2 r2,
  sexec kind beh onerr (s_init t0 prog) tr c -> tr = a ++ (t1, EPick i) :: b ++ (t2, EPick j) :: d ->
  (forall t id tp, In (t, ESubmit id tp) b -> tp1 <= tp) ->
  first_min (pending a) = Some ((tp1, i), r1) -> first_min (pending (a ++ (t1, EPick i) :: b)) = Some ((tp2, j), r2) ->
  tp1 <= tp2.
Proof.
  intros kind beh onerr t0 prog tr c a t1 i b t2 j d tp1 r1 tp2 r2 X E HB F1 F2.
  destruct (first_min_in _ _ _ F1) as [_ M1]. destruct (first_min_in _ _ _ F2) as [I2 _].
  assert (K : forall l w, (forall t id tp, In (t, ESubmit id tp) l -> tp1 <= tp) -> (forall z, In z w -> tp1 <= fst z) ->
    forall z, In z (fold_left pending1 l w) -> tp1 <= fst z).
  { clear. induction l as [|[t e] l IH]; cbn; intros w H1 H2 z Hz; [auto|].
    eapply IH; [intros; eapply H1; right; eauto | | exact Hz].
    intros y Hy. unfold pending1 in Hy. cbn in Hy. destruct e; auto.
    - apply in_app_or in Hy. destruct Hy as [Hy | [<- | []]]; auto. cbn. eapply H1. left. reflexivity.
    - apply filter_In in Hy. apply H2. tauto.
    - apply filter_In in Hy. apply H2. tauto. }
  change tp2 with (fst (tp2, j)). eapply K; [| |rewrite pending_app in I2; exact I2].
  - intros t id tp [W | W]; [discriminate | eauto].
  - exact M1.
Qed.
Print Assumptions C16_nondecreasing.
Example C16_case : pending (firstn 20 (fst ex_run)) = [(7, 3%nat); (4, 4%nat); (10, 1%nat)] /\
  first_min (pending (firstn 20 (fst ex_run))) = Some ((4, 4%nat), [(7, 3%nat); (10, 1%nat)]).
Proof. split; vm_compute; reflexivity. Qed.

(** ** C17 *)

(** Full statement: the k-th repetition "d after this time point" of a task first due at
    f does not start before f + k * d.  Same counterexample as C14: the third run on
    current_thread is due at 23 and starts at 20 (it was submitted for time 0). *)
Definition C17_claim : Prop := forall kind beh onerr t0 prog tr c a t w id b d f,
  sexec kind beh onerr (s_init t0 prog) tr c -> tr = a ++ (t, EStart w id) :: b ->
  first_due a id = Some f -> kind_is a id KThis -> (forall v, In v (repeats a id) -> v = d) ->
  f + Z.of_nat (length (repeats a id)) * d <= t.
Theorem C17_period_refuted : ~ C17_claim.
Proof.
  intros C.
  assert (X := srun_sound ex_kind ex_beh ex_onerr (repeat CRun 100) (s_init 0 [ASched CT 0 0%nat 6]) (fst ex_run) (snd ex_run)).
  specialize (X ltac:(vm_compute; reflexivity)).
  assert (E : fst ex_run = firstn 39 (fst ex_run) ++ (20, EStart CT 1%nat) :: skipn 40 (fst ex_run)) by (vm_compute; reflexivity).
  assert (W := C _ _ _ _ _ _ _ _ _ _ _ _ 10 0 X E).
  revert W. replace (first_due (firstn 39 (fst ex_run)) 1) with (Some 0) by (vm_compute; reflexivity).
  replace (repeats (firstn 39 (fst ex_run)) 1) with [10; 10; 10] by (vm_compute; reflexivity).
  intros W. apply W; auto.
  - exists 0, CT, 7%nat, 0. left. vm_compute. tauto.
  - cbn. intuition.
Qed.
Print Assumptions C17_period_refuted.

(** It holds on immediate, and on current_thread as long as the task was never repeated
    directly (that is, with other tasks waiting, or by the loop that runs the outermost
    task). Intervals may vary from run to run. *)
Theorem C17_period_partial : forall kind beh onerr t0 prog tr c a t w id b,
  sexec kind beh onerr (s_init t0 prog) tr c -> tr = a ++ (t, EStart w id) :: b ->
  kind_is a id KThis -> w = IMM \/ ~ rerun_in a id ->
  exists f, first_due a id = Some f /\ f + zsum (repeats a id) <= t /\
    (forall d, (forall v, In v (repeats a id) -> v = d) -> f + Z.of_nat (length (repeats a id)) * d <= t).
Proof.
  intros kind beh onerr t0 prog tr c a t w id b X E K W.
  destruct (C14_not_before_due_partial _ _ _ _ _ _ _ _ _ _ _ _ X E) as (k & x & A & B).
  assert (P := prefix_per _ _ _ _ _ _ _ _ _ _ _ _ X E). destruct (P _ _ _ A) as (K2 & f & F & S1).
  assert (k = KThis).
  { destruct (locate _ _ _ _ _ _ X _ _ _ _ E) as [(tr0 & s & it & rest & s' & its & l1 & l2 & X0 & H & EA & -> & _) | (h & s & stk & E1 & _)];
      [|discriminate].
    destruct (start_step _ _ _ _ _ _ _ _ _ _ _ H) as (-> & C). cbn in EA. rewrite app_nil_r in EA. subst tr0.
    eapply kind_unique; eauto. }
  subst k. exists f. split; auto. specialize (S1 eq_refl). subst x.
  assert (f + zsum (repeats a id) <= t) by (apply B; tauto). split; auto.
  intros d HD. rewrite <- zsum_const; auto.
Qed.
Print Assumptions C17_period_partial.
Definition ex2_run := srun ex_kind ex_beh ex_onerr (repeat CRun 20 ++ [CTick 25] ++ repeat CRun 40) (s_init 0 [ASched CT 5 1%nat 6; ASched IMM 5 1%nat 6]).
Example C17_case : flat_map (fun e => match snd e with EStart w id => [(fst e, w, Z.of_nat id)] | _ => [] end) (fst ex2_run) =
  [(5, CT, 0); (15, CT, 0); (25, CT, 0); (60, CT, 0); (65, IMM, 1); (75, IMM, 1); (85, IMM, 1); (95, IMM, 1)] /\
  first_due (fst ex2_run) 0 = Some 5 /\ repeats (fst ex2_run) 0 = [10; 10; 10].
Proof. repeat split; vm_compute; reflexivity. Qed.

(** ** C18 *)

(** A picked task has a live handler, even with other threads disposing handlers at any
    moment.  If only this thread disposes, no task of a disposed handler starts.  After
    another thread has disposed a handler, its task starts at most once more (it had been
    picked before).  What is dropped never starts. *)
Theorem C18_disposed_tasks_do_not_run : forall kind beh onerr t0 prog tr c,
  sexec kind beh onerr (s_init t0 prog) tr c ->
  (forall a t id b h, tr = a ++ (t, EPick id) :: b -> handler_of a id h -> ~ disposed_before a h) /\
  (forall a t w id b h, tr = a ++ (t, EStart w id) :: b -> (forall t h, ~ In (t, EEnv h) a) ->
     handler_of a id h -> ~ disposed_before a h) /\
  (forall a t h b id, tr = a ++ (t, EEnv h) :: b -> handler_of a id h -> (starts id b <= 1)%nat) /\
  (forall a t w id b, tr = a ++ (t, EStart w id) :: b -> ~ finished_in a id).
Proof.
  intros kind beh onerr t0 prog tr c X. split; [|split; [|split]].
  - intros a t id b h E. eapply pick_alive; eauto.
  - intros a t w id b h E. eapply start_alive; eauto.
  - intros a t h b id E. eapply env_dispose_once; eauto.
  - intros a t w id b E. eapply finished_no_start; eauto.
Qed.
Print Assumptions C18_disposed_tasks_do_not_run.
Example C18_case : handler_of (fst ex_run) 5 9 /\ disposed_before (fst ex_run) 9 /\ finished_in (fst ex_run) 5.
Proof.
  split; [exists 3, CT, KNow, 2; left; vm_compute; tauto|].
  split; [exists 3; left; vm_compute; tauto | exists 3; left; vm_compute; tauto].
Qed.

(** The one more run does happen: drain_queue looks at the handler before sleeping and
    not after (current_thread.hpp:109-117), unlike the other paths (utils.hpp:55, 95). *)
Definition ex3_beh (c n : nat) : list act * sres :=
  match c with 0%nat => ([ASched CT 5 1%nat 7], RStop) | _ => ([], RStop) end.
Definition ex3_run := srun (fun _ => KNow) ex3_beh (fun _ => []) (repeat CRun 10 ++ [CEnv 7] ++ repeat CRun 10) (s_init 0 [ASched CT 0 0%nat 6]).
Theorem C18_disposed_while_sleeping_still_runs :
  exists c, sexec (fun _ => KNow) ex3_beh (fun _ => []) (s_init 0 [ASched CT 0 0%nat 6]) (fst ex3_run) c /\
  exists a b d, fst ex3_run = a ++ (0, EPick 1) :: b ++ (5, EStart CT 1) :: d /\ handler_of a 1 7 /\ In (0, EEnv 7) b.
Proof.
  exists (snd ex3_run). split; [apply srun_sound with (cs := repeat CRun 10 ++ [CEnv 7] ++ repeat CRun 10); vm_compute; reflexivity|].
  exists (firstn 5 (fst ex3_run)), [(0, EEnv 7)], (skipn 8 (fst ex3_run)).
  split; [vm_compute; reflexivity|]. split; [exists 0, CT, KNow, 5; left; vm_compute; tauto | now left].
Qed.
Print Assumptions C18_disposed_while_sleeping_still_runs.

(** On immediate the handler is looked at again after the sleep: a task "from now" whose
    handler is disposed, by any thread, before the task is due does not start. *)
Theorem C18_disposed_before_due_immediate : forall kind beh onerr t0 prog tr c a t id b x t' h,
  sexec kind beh onerr (s_init t0 prog) tr c -> tr = a ++ (t, EStart IMM id) :: b ->
  due a id = Some (KNow, x) -> handler_of a id h -> In (t', EDisp h) a \/ In (t', EEnv h) a -> x <= t'.
Proof. intros. eapply slept_start; eauto. Qed.
Print Assumptions C18_disposed_before_due_immediate.
(** Disposed while the thread is about to sleep until 5: dropped; without that it starts at 5. *)
Example C18_case_immediate :
  fst (srun (fun _ => KNow) ex3_beh (fun _ => []) (repeat CRun 3 ++ [CEnv 7] ++ repeat CRun 10) (s_init 0 [ASched IMM 5 1%nat 7]))
    = [(0, ECall IMM 0 7 KNow 5); (0, EEnv 7); (5, EDrop 0)] /\
  fst (srun (fun _ => KNow) ex3_beh (fun _ => []) (repeat CRun 10) (s_init 0 [ASched IMM 5 1%nat 7]))
    = [(0, ECall IMM 0 7 KNow 5); (5, EStart IMM 0); (5, EEnd IMM 0 RStop)].
Proof. split; vm_compute; reflexivity. Qed.

(** ** C20 *)

(** A throw is followed at once by on_error of the task's own handler; on_error is called
    for nothing else; afterwards the task appears in no event; and (C15, C16 hold with
    throwing tasks) everything else still runs: when control returns to the outermost
    program, all tasks are over. *)
Theorem C20_exceptions : forall kind beh onerr t0 prog tr c,
  sexec kind beh onerr (s_init t0 prog) tr c ->
  (forall a t w id b, tr = a ++ (t, EEnd w id RThrow) :: b ->
     exists h b', b = (t, EErr id h) :: b' /\ (forall h', handler_of a id h' -> h' = h)) /\
  (forall a t id h b, tr = a ++ (t, EErr id h) :: b -> exists w a', a = a' ++ [(t, EEnd w id RThrow)]) /\
  (forall a t ev b id, tr = a ++ (t, ev) :: b -> finished_in a id -> In id (all_id ev) ->
     exists h w a', ev = EErr id h /\ a = a' ++ [(t, EEnd w id RThrow)]) /\
  (forall s rest w id, c = (s, map IAct rest) -> called_in tr w id -> finished_in tr id).
Proof.
  intros kind beh onerr t0 prog tr c X. split; [|split; [|split]].
  - intros a t w id b E. eapply throw_reported; eauto.
  - intros a t id h b E. eapply report_thrown; eauto.
  - intros a t ev b id E. eapply finished_silent; eauto.
  - intros s rest w id -> C. eapply returned_all; eauto.
Qed.
Print Assumptions C20_exceptions.
(** So on_error is called at most once per task. *)
Theorem C20_error_once : forall kind beh onerr t0 prog tr c a t id h b,
  sexec kind beh onerr (s_init t0 prog) tr c -> tr = a ++ (t, EErr id h) :: b ->
  forall t' h', ~ In (t', EErr id h') b.
Proof.
  intros kind beh onerr t0 prog tr c a t id h b X E t' h' W.
  destruct (in_split _ _ W) as (p & q & ->).
  destruct (C20_exceptions _ _ _ _ _ _ _ X) as (_ & R & S1 & _).
  destruct (R _ _ _ _ _ E) as (w & a' & ->).
  assert (F : finished_in (((a' ++ [(t, EEnd w id RThrow)]) ++ (t, EErr id h) :: p)) id).
  { exists t. right. exists w. right. rewrite !in_app_iff. left. right. now left. }
  assert (E2 : tr = ((a' ++ [(t, EEnd w id RThrow)]) ++ (t, EErr id h) :: p) ++ (t', EErr id h') :: q) by (rewrite E, <- !app_assoc; reflexivity).
  destruct (R _ _ _ _ _ E2) as (w2 & a2 & E3).
  (* the second throw would happen after the task was over *)
  assert (E4 : tr = a2 ++ (t', EEnd w2 id RThrow) :: (t', EErr id h') :: q) by (rewrite E2, E3, <- app_assoc; reflexivity).
  assert (F2 : finished_in a2 id).
  { assert (L : In (t, EErr id h) (a2 ++ [(t', EEnd w2 id RThrow)])) by (rewrite <- E3; apply in_or_app; right; now left).
    assert (a2 = (a' ++ [(t, EEnd w id RThrow)]) ++ (t, EErr id h) :: removelast p \/ p = []).
    { destruct p as [|x p] using rev_ind; [auto|]. left. clear IHp. rewrite removelast_last.
      change ((t, EErr id h) :: p ++ [x]) with (((t, EErr id h) :: p) ++ [x]) in E3. rewrite app_assoc in E3.
      apply app_inj_tail in E3. symmetry. tauto. }
    destruct H as [-> | ->].
    - exists t. right. exists w. right. rewrite !in_app_iff. left. right. now left.
    - exfalso. change ([(t, EErr id h)]) with ([] ++ [(t, EErr id h)]) in E3. rewrite app_nil_l in E3. apply app_inj_tail in E3. destruct E3 as [_ E3]. discriminate. }
  destruct (S1 _ _ _ _ id E4 F2 (or_introl eq_refl)) as (? & ? & ? & ? & _). discriminate.
Qed.
Print Assumptions C20_error_once.
Example C20_case : exists a b, fst ex_run = a ++ (4, EEnd CT 4 RThrow) :: (4, EErr 4 8) :: b /\ In (10, EStart CT 1) b.
Proof. exists (firstn 22 (fst ex_run)), (skipn 24 (fst ex_run)). split; [vm_compute; reflexivity | vm_compute; tauto]. Qed.
