(** Theorems C14, C17 - C23, C57 (new_thread, run_loop, test_scheduler, thread_pool). *)
From Coq Require Import ZArith NArith Permutation Lia.
From Verif Require Import Base Concur QueueSpec QueueProofs SchedSpec LoopSpec LoopBase LoopAbs.
From Verif Require Import TestModel TestProofs RunLoopModel RunLoopProofs NewThreadModel NewThreadProofs PoolModel.
Open Scope Z_scope.

(** Every trace of one of the three schedulers: any programs, any behaviour of tasks and
    handlers, any interleaving, any clock that moves forward. *)
Inductive loop_run : list ltev -> Prop :=
| LR_test : forall kind beh onerr t0 prog tr c, gexec (xstep kind beh onerr) (x_init t0 prog) tr c -> loop_run tr
| LR_run : forall kind beh onerr choice t0 progs tr c, gexec (rstep kind beh onerr choice) (r_init t0 progs) tr c -> loop_run tr
| LR_new : forall kind beh onerr t0 t1 progs tr c, t1 <= t0 -> gexec (nstep kind beh onerr) (n_init t0 t1 progs) tr c -> loop_run tr.

Lemma loop_abs : forall tr, loop_run tr -> exists t0 s, aexec (a_init t0) tr s /\ forall i, err_n i s = 0%nat.
Proof.
  intros tr [kind beh onerr t0 prog tr' [s ts] X | kind beh onerr choice t0 progs tr' [s ts] X | kind beh onerr t0 t1 progs tr' [s ts] L X].
  - exists t0. eexists. split; [eapply x_abs_exec; exact X|]. intro i. unfold err_n, x_abs. cbn.
    induction (concat ts) as [|x l IH]; auto. cbn. rewrite flat_map_app, count_occ_app, IH. destruct x; auto.
  - exists t0. eexists. split; [eapply r_abs_exec; exact X|]. intro i. unfold err_n, r_abs. cbn.
    induction (concat ts) as [|x l IH]; auto. cbn. rewrite flat_map_app, count_occ_app, IH. destruct x; auto.
  - exists t0. eexists. split; [eapply n_abs_exec; [exact L | exact X]|]. intro i. unfold err_n, n_abs. cbn.
    induction (concat ts) as [|x l IH]; auto. cbn. rewrite flat_map_app, count_occ_app, IH. destruct x; auto.
Qed.

Lemma no_start : forall tr id, forallb (fun e : ltev => match snd e with LStart i => negb (Nat.eqb i id) | _ => true end) tr = true -> ~ happened tr (LStart id).
Proof. intros tr id F (t & I). rewrite forallb_forall in F. specialize (F _ I). cbn in F. rewrite Nat.eqb_refl in F. discriminate. Qed.
Ltac find_in := vm_compute; repeat first [left; reflexivity | right].

(** ** Example programs *)

(** test_scheduler: handler 3 is disposed before its task is due; task 1 repeats twice,
    "from this time point"; task 4 throws and its handler schedules another one. *)
Definition xk (c : nat) : skind := match c with 1%nat => KThis | 2%nat => KTo | _ => KNow end.
Definition xb (c n : nat) : list xact * sres :=
  match c, n with
  | 0%nat, _ => ([XSched 2 5%nat 2], RStop)
  | 1%nat, 0%nat | 1%nat, 1%nat => ([], RAgain 3)
  | 4%nat, _ => ([], RThrow)
  | _, _ => ([], RStop)
  end.
Definition xe (h : nat) : list xact := if Nat.eqb h 4 then [XSched 1 5%nat 6] else [].
Definition x_prog : list xact :=
  [XSched 1 0%nat 1; XSched 1 1%nat 1; XSched 4 5%nat 3; XSched 2 4%nat 4; XDispose 3; XAdvance 5; XSched 0 5%nat 9].
Definition x_ex := gtol (xstep xk xb xe) (repeat 0%nat 35) (x_init 10 x_prog).
Definition starts_of (tr : list ltev) := flat_map (fun e => match snd e with LStart id => [(fst e, id)] | _ => [] end) tr.
(** new_thread: two threads; the second task repeats. *)
Definition nk (c : nat) : skind := match c with 1%nat => KThis | _ => KNow end.
Definition nb (c n : nat) : list tact * sres :=
  match c, n with
  | 0%nat, 0%nat => ([TNest 0 7%nat 2; TAct (NSub 1 7%nat 2)], RAgain 0)
  | 0%nat, 1%nat | 0%nat, 2%nat => ([], RAgain 0)
  | 1%nat, 0%nat => ([TAct (NTick 4)], RAgain 3)
  | 1%nat, 1%nat => ([], RThrow)
  | 3%nat, _ => ([TNest 0 7%nat 2], RAgain 0)
  | 4%nat, O => ([TNest 0 7%nat 2], RAgain 0)
  | 4%nat, _ => ([], RAgain 0)
  | _, _ => ([], RStop)
  end.
Definition n_ex := gtol (nstep nk nb (fun _ => []))
  ([1;1;1;1; 0;0; 2;2;2;2] ++ repeat 0 20 ++ [1] ++ repeat 0 5 ++ repeat 2 8 ++ repeat 0 30)%nat
  (n_init 10 0 [[NSub 0 0%nat 1; NTick 5]; [NSub 0 1%nat 3; NTick 1; NSub 0 9%nat 5; NKill 5; NStop]]).
(** run_loop: thread 1 pushes three tasks, thread 2 dispatches and then disposes, thread 3
    dispatches after that. *)
Definition rb (c n : nat) : list ract * sres :=
  match c, n with
  | 0%nat, 0%nat => ([RSched 1 2%nat 7; RDispatch false], RAgain 2)
  | 1%nat, _ => ([], RThrow)
  | _, _ => ([], RStop)
  end.
Definition r_ex := gtol (rstep nk rb (fun _ => []) (fun _ => 0%nat))
  (repeat 2 3 ++ repeat 1 12 ++ repeat 2 3 ++ repeat 1 3 ++ repeat 2 70 ++ repeat 3 10)%nat
  (r_init 10 [[RSched 3 0%nat 9]; [RSched 2 1%nat 1; RSched 0 0%nat 2; RSched 0 0%nat 3; RKill 3];
              [RDispatch true; RTick 7; RDispatch true; RDispatch true; RLDispose]; [RDispatch true]]).

Lemma ex_runs : loop_run (fst x_ex) /\ loop_run (fst n_ex) /\ loop_run (fst r_ex).
Proof.
  split; [|split].
  - eapply LR_test. apply gtol_sound.
  - eapply LR_new; [|apply gtol_sound]. lia.
  - eapply LR_run. apply gtol_sound.
Qed.

(** ** C14 *)

(** No start before the due time. *)
Theorem C14_loops_not_before_due : forall tr a t id b, loop_run tr -> tr = a ++ (t, LStart id) :: b ->
  exists h k x, asked a id = Some (h, k, x) /\ x <= t.
Proof.
  intros tr a t id b R E. destruct (loop_abs _ R) as (t0 & s & X & _).
  destruct (f_start _ _ _ X _ _ _ _ E) as (h & k & x & A & B & _). eauto.
Qed.
Print Assumptions C14_loops_not_before_due.
(** Starts with their times: repetition of all kinds, nested and disposed tasks. *)
Example C14_loops_case : starts_of (fst x_ex) = [(15, 0%nat); (15, 1%nat); (15, 3%nat); (15, 1%nat); (15, 6%nat)] /\
  starts_of (fst n_ex) = [(10, 0%nat); (10, 1%nat); (14, 2%nat); (14, 0%nat); (19, 3%nat); (20, 1%nat); (20, 0%nat); (20, 0%nat)] /\
  starts_of (fst r_ex) = [(10, 1%nat); (17, 3%nat); (17, 0%nat)] /\
  asked (fst n_ex) 1 = Some (3%nat, KThis, 13) /\ asked (firstn 24 (fst n_ex)) 0 = Some (1%nat, KNow, 19).
Proof. vm_compute. repeat split. Qed.

(** ** C17 *)

(** A task repeated "from this time point" is due at its first due time plus the sum of
    the intervals it asked for, and does not start earlier. *)
Theorem C17_loops_no_drift : forall tr a t id b h x, loop_run tr -> tr = a ++ (t, LStart id) :: b ->
  asked a id = Some (h, KThis, x) ->
  exists f, lfirst a id = Some f /\ x = f + zsum (intervals a id) /\ f + zsum (intervals a id) <= t.
Proof.
  intros tr a t id b h x R E A. destruct (loop_abs _ R) as (t0 & s & X & _).
  destruct (a_locate _ _ _ X _ _ _ E) as (s1 & s2 & X1 & _ & _).
  destruct (f_start _ _ _ X _ _ _ _ E) as (h' & k & x' & A' & B & _).
  destruct (f_period _ _ _ X1 _ _ _ A) as (f & F & EX). exists f. split; auto. split; auto. congruence.
Qed.
Print Assumptions C17_loops_no_drift.
(** With equal intervals d: the (k+1)-th run is due at f + k d. *)
Theorem C17_loops_period : forall tr a t id b h x d, loop_run tr -> tr = a ++ (t, LStart id) :: b ->
  asked a id = Some (h, KThis, x) -> (forall v, In v (intervals a id) -> v = d) ->
  exists f, lfirst a id = Some f /\ f + Z.of_nat (length (intervals a id)) * d <= t.
Proof.
  intros tr a t id b h x d R E A D. destruct (C17_loops_no_drift _ _ _ _ _ _ _ R E A) as (f & F & _ & L). exists f. split; auto.
  replace (Z.of_nat (length (intervals a id)) * d) with (zsum (intervals a id)); auto. clear - D.
  induction (intervals a id) as [|v l IH]; [reflexivity|]. change (zsum (v :: l)) with (v + zsum l). rewrite IH by (intros; apply D; now right).
  rewrite (D v) by now left. cbn [length]. lia.
Qed.
Print Assumptions C17_loops_period.
(** The second run of task 1 is due at 14 although the first one ran late and long. *)
Example C17_loops_case : lfirst (fst x_ex) 1 = Some 11 /\ intervals (fst x_ex) 1 = [3; 3] /\
  asked (firstn 19 (fst x_ex)) 1 = Some (1%nat, KThis, 14).
Proof. vm_compute. repeat split. Qed.

(** ** C18 *)

(** A task is picked (or repeated at once) only while its handler is not disposed; every
    start has its own pick; a task is given up only because its handler is disposed, and
    then never heard of again. *)
Theorem C18_loops_disposed : forall tr, loop_run tr ->
  (forall a t id b, tr = a ++ (t, LPick id) :: b -> exists h k x, asked a id = Some (h, k, x) /\ ~ gone a h) /\
  (forall a t id b, tr = a ++ (t, LDirect id) :: b -> exists h k x, asked a id = Some (h, k, x) /\ ~ gone a h) /\
  (forall id, (times (is_start id) tr <= times (is_pick id) tr)%nat) /\
  (forall a t id b, tr = a ++ (t, LDrop id) :: b -> (exists h k x, asked a id = Some (h, k, x) /\ gone a h) /\
     forall t' e, In (t', e) b -> id_of e <> Some id).
Proof.
  intros tr R. destruct (loop_abs _ R) as (t0 & s & X & N). split; [|split; [|split]].
  - intros a t id b E. destruct (f_pick _ _ _ X _ _ _ _ E) as (tp & r & h & k & x & _ & _ & A & G). eauto.
  - intros a t id b E. destruct (f_direct _ _ _ X _ _ _ _ E) as (h & k & x & A & _ & G). eauto.
  - intro id. eapply f_started; eauto.
  - intros a t id b E. split; [eapply f_drop; eauto|]. intros t' e I ID. destruct (in_split _ _ I) as (p & q & EB).
    assert (E' : tr = (a ++ (t, LDrop id) :: p) ++ (t', e) :: q) by (rewrite E, EB, <- app_assoc; reflexivity).
    destruct (f_over _ _ _ X _ _ _ _ id E') as (h & ->); auto.
    + left. exists t. apply in_or_app. right. now left.
    + (* an error needs a throw before, which a dropped task has not had *)
      destruct (f_err _ _ _ X _ _ _ _ _ E') as (TH & _ & _). destruct TH as (t2 & TH).
      destruct (in_split _ _ TH) as (u & v & EU).
      apply app_eq_app in EU. destruct EU as (l & [[E1 E2] | [E1 E2]]).
      * destruct l as [|y l]; [cbn in E2; discriminate|]. injection E2 as <- E2.
        assert (E3 : tr = (u ++ (t2, LEnd id RThrow) :: l) ++ (t, LDrop id) :: b) by (rewrite E, E1; reflexivity).
        destruct (f_over _ _ _ X _ _ _ _ id E3) as (h' & Q); [|reflexivity|discriminate].
        right; right. exists t2. apply in_or_app. right. now left.
      * destruct l as [|y l]; [cbn in E2; discriminate|]. injection E2 as <- E2.
        assert (E3 : tr = u ++ (t2, LEnd id RThrow) :: v ++ (t', LErr id h) :: q).
        { rewrite E', E1, E2. rewrite <- !app_assoc. cbn. rewrite <- !app_assoc. reflexivity. }
        destruct (f_over _ _ _ X _ _ _ _ id E3) as (h' & Q); [|reflexivity|discriminate].
        left. exists t. rewrite E1. apply in_or_app. right. now left.
Qed.
Print Assumptions C18_loops_disposed.
Example C18_loops_case : happened (fst x_ex) (LDrop 2) /\ happened (fst n_ex) (LDrop 4) /\ happened (fst r_ex) (LDrop 2) /\
  gone (fst n_ex) 5 /\ ~ happened (fst n_ex) (LStart 4).
Proof.
  split; [exists 15; find_in|]. split; [exists 20; find_in|]. split; [exists 10; find_in|].
  split; [exists 20; find_in|]. apply no_start. vm_compute. reflexivity.
Qed.

(** ** C20 *)

(** on_error of the right handler is called once for each throw and for nothing else, and
    the task does not come back. *)
Theorem C20_loops_exception : forall tr, loop_run tr ->
  (forall id, happened tr (LEnd id RThrow) -> exists h, happened tr (LErr id h)) /\
  (forall a t id h b, tr = a ++ (t, LErr id h) :: b -> happened a (LEnd id RThrow) /\ (forall h', ~ happened a (LErr id h')) /\
     (exists k x, asked a id = Some (h, k, x)) /\ (forall h', ~ happened b (LErr id h'))) /\
  (forall a t e b id, tr = a ++ (t, e) :: b -> happened a (LEnd id RThrow) -> id_of e = Some id -> exists h, e = LErr id h).
Proof.
  intros tr R. destruct (loop_abs _ R) as (t0 & s & X & N). split; [|split].
  - intros id H. eapply f_threw; eauto.
  - intros a t id h b E. eapply f_err; eauto.
  - intros a t e b id E H I. eapply f_over; eauto. right. now right.
Qed.
Print Assumptions C20_loops_exception.
Example C20_loops_case : happened (fst x_ex) (LErr 3 4) /\ happened (fst n_ex) (LErr 1 3) /\ happened (fst r_ex) (LErr 0 1).
Proof. split; [exists 15; find_in|]. split; [exists 20; find_in | exists 17; find_in]. Qed.

(** ** C19 *)

(** When a task was put into the queue for its next run. *)
Definition put_at (tr : list ltev) (id : nat) : option Z :=
  fold_left (fun c (e : ltev) => match snd e with LCall _ i _ _ _ | LAgain i _ => if Nat.eqb i id then Some (fst e) else c | _ => c end) tr None.
(** Full statement of the run times: at the due time, or at once if that is past. *)
Definition C19_claim : Prop := forall kind beh onerr t0 prog tr c a t id b h k x p,
  gexec (xstep kind beh onerr) (x_init t0 prog) tr c -> tr = a ++ (t, LStart id) :: b ->
  asked a id = Some (h, k, x) -> put_at a id = Some p -> t = Z.max x p.
(** Task 0 is due at 11; time_advance(5) at 10 runs it at 15. *)
Theorem C19_runs_at_due_time_refuted : ~ C19_claim.
Proof.
  intro C. assert (X := gtol_sound (xstep xk xb xe) (repeat 0%nat 35) (x_init 10 x_prog)).
  specialize (C _ _ _ _ _ _ _ (firstn 7 (fst x_ex)) 15 0%nat (skipn 8 (fst x_ex)) 1%nat KNow 11 10 X).
  specialize (C ltac:(vm_compute; reflexivity) ltac:(vm_compute; reflexivity) ltac:(vm_compute; reflexivity)). discriminate.
Qed.
Print Assumptions C19_runs_at_due_time_refuted.
(** The rest: the clock is exactly the start plus what was advanced; tasks are picked in
    (due, submission) order and never early; when control is back in the program that
    calls time_advance or schedule, every task due by then has been run (or dropped) and
    all others are still waiting; a repetition is never queued for the past.  Missing: run times (above). *)
Theorem C19_test_scheduler_partial : forall kind beh onerr t0 prog tr s ts,
  gexec (xstep kind beh onerr) (x_init t0 prog) tr (s, ts) ->
  x_now s = t0 + advanced tr /\
  (forall a t id b, tr = a ++ (t, LPick id) :: b -> exists tp r, first_min (waits a) = Some ((tp, id), r) /\ tp <= t) /\
  (forall a t id b, tr = a ++ (t, LStart id) :: b -> exists h k x, asked a id = Some (h, k, x) /\ x <= t) /\
  (forall t id tp, In (t, LAgain id tp) tr -> t <= tp) /\
  (forall rest, ts = [map XAct rest] ->
     (forall tp id, In (tp, id) (waits tr) -> x_now s < tp) /\
     (forall id, called tr id -> over tr id \/ exists tp, In (tp, id) (waits tr))).
Proof.
  intros kind beh onerr t0 prog tr s ts X. pose proof (x_abs_exec _ _ _ _ _ _ _ _ X) as A. split; [|split; [|split; [|split]]].
  - exact (x_clock _ _ _ _ _ _ _ X).
  - intros a t id b E. destruct (f_pick _ _ _ A _ _ _ _ E) as (tp & r & h & k & x & F & L & _). eauto.
  - intros a t id b E. destruct (f_start _ _ _ A _ _ _ _ E) as (h & k & x & F & L & _). eauto.
  - set (Inv := fun (_ : xstate) (_ : list xitem) (tr : list ltev) => forall t id tp, In (t, LAgain id tp) tr -> t <= tp).
    change (Inv (fst (s, ts)) (concat (snd (s, ts))) tr). refine (gexec_inv (xstep kind beh onerr) Inv _ _ _ _ _ X _); unfold Inv; [auto| |intros t id tp []].
    + intros c it l tr0 s' its ls I E t id tp H. apply in_app_iff in H as [H|H]; eauto.
      destruct it as [[]| |u|u []|u p]; cbn [xstep] in E.
      all: repeat match type of E with context [match ?x with _ => _ end] => destruct x end; inversion E; subst; clear E; cbn in H;
        repeat (destruct H as [H|H]; [try discriminate H; injection H as; subst; lia|]); try contradiction.
  - intros rest ->. destruct (x_quiet _ _ _ _ _ _ _ _ X) as (stk & outer & ET & SO & QL & QD).
    assert (stk = []).
    { destruct stk as [|i0 stk]; auto. destruct QD as [stk' ES]; [discriminate|]. exfalso. injection ET as ET.
      assert (I0 : In XDrain (i0 :: stk)) by (rewrite ES; apply in_or_app; right; now left).
      assert (I : In XDrain (map XAct rest)) by (rewrite ET; destruct I0 as [-> | I0]; [now left | right; apply in_or_app; auto]).
      apply in_map_iff in I. destruct I as (? & ? & _). discriminate. }
    split.
    + intros tp id I. pose proof (f_queue _ _ _ A) as Q. cbn [x_abs a_queue] in Q.
      assert (I2 : In (tp, id) (map tkey (x_queue s))).
      { rewrite Q. now apply sortw_in. }
      apply in_map_iff in I2. destruct I2 as (tk & EK & I2). unfold tkey in EK. injection EK as <- <-. now apply QL.
    + intros id C. assert (HH : a_hands (x_abs s (concat [map XAct rest])) = []).
      { cbn. rewrite app_nil_r. clear. induction rest; auto. }
      destruct (f_all _ _ _ A HH eq_refl _ C) as [O | O]; auto. right. unfold idsw in O. apply in_map_iff in O. destruct O as ([tp i] & <- & O). eauto.
Qed.
Print Assumptions C19_test_scheduler_partial.
Example C19_case : advanced (fst x_ex) = 5 /\ snd (snd x_ex) = [map XAct []] /\ waits (fst x_ex) = [(17, 4%nat); (16, 5%nat); (18, 1%nat)].
Proof. vm_compute. repeat split. Qed.

(** ** C21 *)

Lemma pool_index_eq : forall i, pool_index i = (i mod size_t_range)%N.
Proof.
  intro i. unfold pool_index. induction i as [|i IH] using N.peano_ind; [reflexivity|].
  rewrite N.iter_succ, IH. cbn [pool_get snd]. replace (N.succ i) with (i + 1)%N by lia. apply N.add_mod_idemp_l. discriminate.
Qed.
Lemma pool_index_any : forall n i, N.iter i (fun idx => snd (pool_get n idx)) 0%N = pool_index i.
Proof. reflexivity. Qed.
(** The i-th worker (from 0) created from a pool of n threads: position i mod max(1, n),
    for the first 2^64 workers, and for all of them if the number of threads divides 2^64. *)
Theorem C21_round_robin_partial : forall n i,
  ((i < size_t_range)%N \/ (size_t_range mod N.max 1 n = 0)%N) ->
  fst (pool_get n (N.iter i (fun idx => snd (pool_get n idx)) 0%N)) = (i mod N.max 1 n)%N.
Proof.
  intros n i H. rewrite pool_index_any, pool_index_eq. cbn [pool_get fst]. unfold pool_size. set (m := N.max 1 n) in *.
  assert (M : m <> 0%N) by (unfold m; lia).
  destruct H as [H | H].
  - now rewrite (N.mod_small i size_t_range H).
  - apply N.mod_divide in H; [|exact M]. destruct H as (q & H).
    rewrite (N.div_mod i size_t_range) at 2 by discriminate. rewrite H at 2.
    rewrite <- N.add_mod_idemp_l by exact M.
    replace (q * m * (i / size_t_range))%N with (q * (i / size_t_range) * m)%N by lia.
    rewrite N.mod_mul by exact M. now rewrite N.add_0_l.
Qed.
Print Assumptions C21_round_robin_partial.
(** Full statement; with three threads the order breaks when m_index wraps around. *)
Definition C21_claim : Prop := forall n i, fst (pool_get n (N.iter i (fun idx => snd (pool_get n idx)) 0%N)) = (i mod N.max 1 n)%N.
Theorem C21_round_robin_refuted : ~ C21_claim.
Proof. intro C. specialize (C 3%N size_t_range). rewrite pool_index_any, pool_index_eq in C. vm_compute in C. discriminate. Qed.
Print Assumptions C21_round_robin_refuted.
Example C21_case : pool_workers 3 0 7 = [0; 1; 2; 0; 1; 2; 0]%N /\ pool_workers 0 0 3 = [0; 0; 0]%N /\ (size_t_range mod N.max 1 8 = 0)%N.
Proof. vm_compute. repeat split. Qed.

(** ** C22 *)

(** Full statement of the order: no task is run while an earlier submitted, due one waits. *)
Definition C22_order_claim : Prop := forall kind beh onerr t0 t1 progs tr c a t id b w, t1 <= t0 ->
  gexec (nstep kind beh onerr) (n_init t0 t1 progs) tr c -> tr = a ++ (t, LDirect id) :: b -> In w (waits a) -> t < fst w.
(** A zero-delay repeating task schedules another with current_thread: the repetition does
    not look at the queue, because only the worker's schedule sets has_fresh_data. *)
Definition starve (n : nat) := gtol (nstep nk nb (fun _ => [])) ([1;1;1;1] ++ repeat 0 (6 + n))%nat (n_init 10 0 [[NSub 0 4%nat 1]]).
Theorem C22_order_refuted : ~ C22_order_claim.
Proof.
  intro C. assert (X := gtol_sound (nstep nk nb (fun _ => [])) ([1;1;1;1] ++ repeat 0 6)%nat (n_init 10 0 [[NSub 0 4%nat 1]])).
  specialize (C nk nb (fun _ => []) 10 0 _ _ _ (firstn 6 (fst (starve 0))) 10 0%nat [] (10, 1%nat) ltac:(lia) X).
  specialize (C ltac:(vm_compute; reflexivity) ltac:(find_in)). cbn in C. lia.
Qed.
Print Assumptions C22_order_refuted.
(** And it can go on for ever: any number of repetitions while the other task, due, waits. *)
Theorem C22_starvation_refuted : forall n, exists tr c,
  gexec (nstep nk nb (fun _ => [])) (n_init 10 0 [[NSub 0 4%nat 1]]) tr c /\
  times (fun e => match e with LDirect 0 => true | _ => false end) tr = n /\ In (10, 1%nat) (waits tr) /\ ~ happened tr (LStart 1).
Proof.
  assert (G : forall n, exists tr s t, gexec (nstep nk nb (fun _ => [])) (n_init 10 0 [[NSub 0 4%nat 1]]) tr (s, [[NRun t]; []]) /\
    n_fresh s = false /\ n_dead s = [] /\ t_k t = KNow /\ t_code t = 4%nat /\ (t_runs t = S n) /\ t_id t = 0%nat /\
    times (fun e => match e with LDirect 0 => true | _ => false end) tr = S n /\ In (10, 1%nat) (waits tr) /\ ~ happened tr (LStart 1)).
  { induction n as [|n (tr & s & t & X & F & D & K & CO & R & ID & TI & W & NS)].
    - exists (fst (starve 0)).
      assert (X : gexec (nstep nk nb (fun _ => [])) (n_init 10 0 [[NSub 0 4%nat 1]]) (fst (starve 0)) (snd (starve 0))) by apply gtol_sound.
      destruct (snd (starve 0)) as [s ts] eqn:E. vm_compute in E. injection E as <- <-.
      do 2 eexists. split; [exact X|]. repeat (split; [reflexivity|]). split.
      + find_in.
      + apply no_start. vm_compute. reflexivity.
    - pose (ls := [(n_now s, LStart 0); (n_now s, LEnd 0 (RAgain 0)); (n_now s, LDirect 0)]).
      exists (tr ++ ls), s, (ran (n_now s) t 0). split; [|cbn; repeat split; auto; try congruence].
      + change ls with ([(n_now s, LStart 0)] ++ [(n_now s, LEnd 0 (RAgain 0))] ++ [(n_now s, LDirect 0)]). rewrite !app_assoc.
        eapply GSnoc with (c1 := (s, [[NRes (ran (n_now s) t 0) 0]; []])).
        * eapply GSnoc with (c1 := (s, [[NRet t (RAgain 0)]; []])).
          -- eapply GSnoc; [exact X|]. rewrite <- ID. apply (GStep (nstep nk nb (fun _ => [])) s [] (NRun t) [] [[]] s [NRet t (RAgain 0)]). cbn. rewrite CO, R. reflexivity.
          -- rewrite <- ID. apply (GStep (nstep nk nb (fun _ => [])) s [] (NRet t (RAgain 0)) [] [[]] s [NRes (ran (n_now s) t 0) 0]). reflexivity.
        * apply (GStep (nstep nk nb (fun _ => [])) s [] (NRes (ran (n_now s) t 0) 0) [] [[]] s [NRun (ran (n_now s) t 0)]). cbn [NewThreadModel.nstep]. unfold dead. rewrite D, F. cbn. rewrite K. cbn. now rewrite ID.
      + unfold times in *. rewrite filter_app, app_length. unfold ltev in *. rewrite TI. cbn. lia.
      + unfold waits in *. rewrite fold_left_app. cbn. exact W.
      + intros (u & I). apply in_app_or in I. destruct I as [I | I]; [apply NS; exists u; exact I|]. repeat (destruct I as [I | I]; try discriminate). destruct I. }
  intros [|n].
  - exists (fst (gtol (nstep nk nb (fun _ => [])) ([1;1;1;1] ++ repeat 0 4)%nat (n_init 10 0 [[NSub 0 4%nat 1]]))). eexists.
    split; [apply gtol_sound|]. split; [reflexivity|]. split; [find_in | apply no_start; vm_compute; reflexivity].
  - destruct (G n) as (tr & s & t & X & _ & _ & _ & _ & _ & _ & T & W & N). eauto 10.
Qed.
Print Assumptions C22_starvation_refuted.

(** The rest.  One task at a time; a task taken from the queue is the first of the waiting
    ones in (due, submission) order; a task repeated without going through the queue
    overtakes only tasks submitted with current_thread from inside the loop or whose
    schedule call has not returned; when the loop has ended, every task ever submitted is
    over; and nothing is ever lost: when no step is possible any more (only time could
    pass), the other threads are done and the loop has ended, or is idle with nothing to do
    and not told to stop, or a task waits for its time.  Missing: order for repetitions. *)
Theorem C22_new_thread_partial : forall kind beh onerr t0 t1 progs tr s ts, t1 <= t0 ->
  gexec (nstep kind beh onerr) (n_init t0 t1 progs) tr (s, ts) ->
  (forall a t id b, tr = a ++ (t, LStart id) :: b -> in_run a = []) /\
  (forall a t id b, tr = a ++ (t, LPick id) :: b -> exists tp r, first_min (waits a) = Some ((tp, id), r)) /\
  (forall a t id b w, tr = a ++ (t, LDirect id) :: b -> In w (waits a) ->
     (exists h k tp, happened a (LCall VNested (snd w) h k tp)) \/
     ((exists h k tp, happened a (LCall VWorker (snd w) h k tp)) /\ ~ happened a (LFresh (snd w)))) /\
  (happened tr LExit -> forall id, called tr id -> over tr id) /\
  ((forall ls c', ~ gstep (nstep kind beh onerr) (s, ts) ls c') ->
     (forall t, In t (tl ts) -> t = []) /\
     (hd [] ts = [] \/ (waits tr = [] /\ n_stop s = false) \/ exists tp id, In (tp, id) (waits tr) /\ n_now s < tp)).
Proof.
  intros kind beh onerr t0 t1 progs tr s ts L X. pose proof (n_abs_exec _ _ _ _ _ _ _ _ _ L X) as A. split; [|split; [|split; [|split]]].
  - intros. eapply one_at_a_time; eauto.
  - intros a t id b E. destruct (f_pick _ _ _ A _ _ _ _ E) as (tp & r & h & k & x & F & _). eauto.
  - intros a t id b w E I. exact (direct_repeat _ _ _ _ _ _ _ _ _ _ _ _ L X E w I).
  - eapply exit_all; eauto.
  - intro ST. destruct (stuck_reason _ _ _ _ _ _ _ _ _ X ST) as (tl & rest & -> & R1 & R2). split; [exact R1|]. cbn [hd].
    pose proof (f_queue _ _ _ A) as Q. cbn [n_abs a_queue] in Q.
    destruct R2 as [(-> & _) | [(-> & Q2 & S2) | (t & -> & I & T)]]; auto.
    + right; left. rewrite Q2 in Q. split; auto. now apply sort_nil.
    + right; right. exists (t_tp t), (t_id t). split; auto. apply (sortw_in (t_tp t, t_id t)). rewrite <- Q. change (t_tp t, t_id t) with (tkey t). now apply in_map.
Qed.
Print Assumptions C22_new_thread_partial.
Example C22_case : happened (fst n_ex) LExit /\ snd (snd n_ex) = [[]; []; []] /\ happened (fst n_ex) (LCall VNested 2 2 KNow 10) /\
  times (fun e => match e with LStart _ => true | _ => false end) (fst n_ex) = 8%nat.
Proof. split; [exists 20; find_in|]. split; [vm_compute; reflexivity|]. split; [exists 10; find_in | vm_compute; reflexivity]. Qed.
(** Once the last worker is gone and all due times are past, the loop does end. *)
Theorem C22_terminates : forall kind beh onerr t0 t1 progs tr s ts, t1 <= t0 ->
  gexec (nstep kind beh onerr) (n_init t0 t1 progs) tr (s, ts) -> (forall ls c', ~ gstep (nstep kind beh onerr) (s, ts) ls c') ->
  happened tr LStop -> (forall tp id, In (tp, id) (waits tr) -> tp <= n_now s) -> gfinished (s, ts).
Proof.
  intros kind beh onerr t0 t1 progs tr s ts L X ST HS PAST.
  assert (S2 : n_stop s = true).
  { clear - X HS. change (n_stop (fst (s, ts)) = true). revert HS. generalize (s, ts) X. clear. intros c X. remember (n_init t0 t1 progs) as c0 eqn:E0.
    induction X as [c|c tr c1 ls c2 X IH G]; [intros (t & [])|]. intro H. apply happened_app in H. inversion G as [s1 ts1 it rest ts2 s2 its ls' E]; subst. cbn [fst].
    cbn [fst] in IH. specialize (IH eq_refl).
    assert (M : n_stop s1 = true -> n_stop s2 = true).
    { clear - E. intro S1. destruct s1 as [now la q d n f p st w k]. cbn in S1. subst st. unfold nstep, n_top in E.
      cbn [n_now n_last n_queue n_dead n_next n_fresh n_pend n_stop n_wait n_woken n_setw n_look n_setq] in E.
      destruct it as [[]| | | | | | | | | | |];
      repeat match type of E with context [match ?x with _ => _ end] =>
        lazymatch x with context [match _ with _ => _ end] => fail | _ => destruct x eqn:? end end;
      try discriminate; injection E as <- <- <-; reflexivity. }
    destruct H as [H | (t & H)]; [auto|]. clear IH M. destruct s1 as [now la q d n f p st w k]. unfold nstep, n_top in E.
    cbn [n_now n_last n_queue n_dead n_next n_fresh n_pend n_stop n_wait n_woken n_setw n_look n_setq] in E.
    destruct it as [[]| | | | | | | | | | |];
    repeat match type of E with context [match ?x with _ => _ end] =>
      lazymatch x with context [match _ with _ => _ end] => fail | _ => destruct x eqn:? end end;
    try discriminate; injection E as <- <- <-; cbn in H; try contradiction; repeat (destruct H as [H | H]; try discriminate; try contradiction); reflexivity. }
  destruct (C22_new_thread_partial _ _ _ _ _ _ _ _ _ L X) as (_ & _ & _ & _ & P). destruct (P ST) as [R [H | [[_ H] | (tp & id & I & H)]]].
  - intros t I. cbn in I. destruct ts as [|t' ts]; [destruct I|]. destruct I as [<- | I]; [exact H | now apply R].
  - congruence.
  - specialize (PAST _ _ I). lia.
Qed.
Print Assumptions C22_terminates.

(** ** C57 *)

(** A task submitted while the loop waits for a later one runs when it is due: full
    statement, "if nothing but the clock can move, no task is due". *)
Definition C57_claim : Prop := forall kind beh onerr t0 t1 progs tr s ts, t1 <= t0 ->
  gexec (nstep kind beh onerr) (n_init t0 t1 progs) tr (s, ts) -> (forall ls c', ~ gstep (nstep kind beh onerr) (s, ts) ls c') ->
  forall tp id, In (tp, id) (waits tr) -> n_now s < tp.
(** wait_for keeps the deadline of the task that was first when it started waiting: one due
    at 110, then one due at 20 is submitted; at 60 the loop still waits. *)
Definition late_ex := gtol (nstep nk nb (fun _ => [])) ([1;1;1;1;0;1;1;1;1;0;1;0;0])%nat
  (n_init 10 0 [[NSub 100 7%nat 1; NSub 10 7%nat 1; NTick 50]]).
Theorem C57_wakes_for_earlier_refuted : ~ C57_claim.
Proof.
  intro C.
  assert (X : gexec (nstep nk nb (fun _ => [])) (n_init 10 0 [[NSub 100 7%nat 1; NSub 10 7%nat 1; NTick 50]]) (fst late_ex) (snd late_ex)) by apply gtol_sound.
  destruct (snd late_ex) as [s ts] eqn:E. vm_compute in E. injection E as <- <-.
  specialize (C _ _ _ 10 0 _ _ _ _ ltac:(lia) X).
  assert (ST : forall ls c', ~ gstep (nstep nk nb (fun _ => [])) (snd late_ex) ls c').
  { intros ls c' G. remember (snd late_ex) as c0 eqn:Q. destruct G as [s1 ts1 it rest ts2 s2 its ls' E]. vm_compute in Q. injection Q as E1 E2. subst s1.
    destruct ts1 as [|y [|y2 ts1]]; cbn in E2; try discriminate; injection E2 as E3 E4; subst; try discriminate. destruct ts1; discriminate. }
  specialize (C ST 20 1%nat ltac:(find_in)). cbn in C. lia.
Qed.
Print Assumptions C57_wakes_for_earlier_refuted.
(** What holds: the loop waits at most until the latest due time. *)
Theorem C57_waits_for_some_due_partial : forall kind beh onerr t0 t1 progs tr s ts, t1 <= t0 ->
  gexec (nstep kind beh onerr) (n_init t0 t1 progs) tr (s, ts) -> (forall ls c', ~ gstep (nstep kind beh onerr) (s, ts) ls c') ->
  waits tr = [] \/ exists tp id, In (tp, id) (waits tr) /\ n_now s < tp.
Proof.
  intros kind beh onerr t0 t1 progs tr s ts L X ST. pose proof (n_abs_exec _ _ _ _ _ _ _ _ _ L X) as A. pose proof (f_queue _ _ _ A) as Q. cbn [n_abs a_queue] in Q.
  destruct (stuck_reason _ _ _ _ _ _ _ _ _ X ST) as (tl & rest & -> & R1 & [(_ & _ & R2) | [(_ & R2 & _) | (t & _ & I & T)]]).
  - left. rewrite R2 in Q. now apply sort_nil.
  - left. rewrite R2 in Q. now apply sort_nil.
  - right. exists (t_tp t), (t_id t). split; auto. apply (sortw_in (t_tp t, t_id t)). rewrite <- Q. change (t_tp t, t_id t) with (tkey t). now apply in_map.
Qed.
Print Assumptions C57_waits_for_some_due_partial.
Example C57_case : snd (snd late_ex) = [[NWaitFor 110]; []] /\ waits (fst late_ex) = [(110, 0%nat); (20, 1%nat)] /\ n_now (fst (snd late_ex)) = 60.
Proof. vm_compute. repeat split. Qed.

(** ** C23 *)

(** Each request (a schedule call or an "again") is run at most once; a task taken by a
    dispatch call is the first of the waiting ones in (due, submission) order and is due;
    one dispatch call runs at most one task; a dispatch call that begins after the loop was
    disposed runs nothing and never blocks. *)
Theorem C23_run_loop : forall kind beh onerr choice t0 progs tr s ts,
  gexec (rstep kind beh onerr choice) (r_init t0 progs) tr (s, ts) ->
  (forall id, (times (is_start id) tr <= times (is_req id) tr)%nat) /\
  (forall a t id b, tr = a ++ (t, LPick id) :: b -> exists tp r, first_min (waits a) = Some ((tp, id), r) /\ tp <= t) /\
  (forall n, (times (fun e => match e with LBy m => Nat.eqb m n | _ => false end) tr <= 1)%nat) /\
  (forall a t n b, tr = a ++ (t, LEnter n) :: b -> happened a LFlag ->
     times (fun e => match e with LBy m => Nat.eqb m n | _ => false end) tr = 0%nat /\
     forall th, In th ts -> ~ In (RBlocked n) th).
Proof.
  intros kind beh onerr choice t0 progs tr s ts X. pose proof (r_abs_exec _ _ _ _ _ _ _ _ _ X) as A. split; [|split; [|split]].
  - intro id. eapply f_once; eauto.
  - intros a t id b E. destruct (f_pick _ _ _ A _ _ _ _ E) as (tp & r & h & k & x & F & L & _). eauto.
  - intro n. apply (by_once _ _ _ _ _ _ _ _ n X).
  - intros a t n b E F. destruct (late_dispatch _ _ _ _ _ _ _ _ _ _ _ _ X E F) as [L1 L2]. split; auto.
    intros th I B. apply L2. cbn [snd]. apply in_flat_map. exists (RBlocked n). split; [|now left]. apply in_concat. eauto.
Qed.
Print Assumptions C23_run_loop.
Example C23_case : happened (fst r_ex) LFlag /\ happened (fst r_ex) (LLeave 4) /\ happened (fst r_ex) (LBy 3) /\
  waits (firstn 15 (fst r_ex)) = [(12, 0%nat); (11, 3%nat); (12, 1%nat)].
Proof. split; [exists 17; find_in|]. split; [exists 17; find_in|]. split; [exists 17; find_in | vm_compute; reflexivity]. Qed.

(** No wake-up is lost: if nothing can move although a dispatch call is waiting, the queue
    is empty, unless the loop is disposed. *)
Theorem C23_no_lost_wakeup : forall kind beh onerr choice t0 progs tr s ts,
  gexec (rstep kind beh onerr choice) (r_init t0 progs) tr (s, ts) ->
  (forall ls c', ~ gstep (rstep kind beh onerr choice) (s, ts) ls c') ->
  ~ happened tr LFlag -> r_waiting s <> [] -> waits tr = [].
Proof.
  intros kind beh onerr choice t0 progs tr s ts X ST F W. pose proof (r_abs_exec _ _ _ _ _ _ _ _ _ X) as A. pose proof (f_queue _ _ _ A) as Q. cbn [r_abs a_queue] in Q.
  assert (D : r_disposed s = false).
  { destruct (r_disposed s) eqn:D; auto. exfalso. apply F. apply (proj2 (dead_fl _ _ _ A)). exact D. }
  rewrite (no_lost_wakeup _ _ _ _ _ _ _ _ _ X ST D W) in Q. now apply sort_nil.
Qed.
Print Assumptions C23_no_lost_wakeup.

(** Disposal wakes one waiting dispatch call: with at most one waiting, everything ends. *)
Theorem C23_stopped : forall kind beh onerr choice t0 progs tr1 c1 ls c2 tr2 s ts,
  gexec (rstep kind beh onerr choice) (r_init t0 progs) tr1 c1 -> gstep (rstep kind beh onerr choice) c1 ls c2 -> happened ls LFlag ->
  (length (r_waiting (fst c1)) <= 1)%nat -> gexec (rstep kind beh onerr choice) c2 tr2 (s, ts) ->
  (forall ls' c', ~ gstep (rstep kind beh onerr choice) (s, ts) ls' c') -> gfinished (s, ts).
Proof. intros. eapply one_waiter_released; eauto. Qed.
Print Assumptions C23_stopped.
(** With two of them one is left (notify_one in dispose, run_loop.hpp:98). *)
Definition two_ex := gtol (rstep nk rb (fun _ => []) (fun _ => 0%nat)) (repeat 0 3 ++ repeat 1 3 ++ repeat 2 4 ++ repeat 0 5 ++ repeat 1 5)%nat
  (r_init 10 [[RDispatch true]; [RDispatch true]; [RLDispose]]).
Example C23_second_waiter_stays : happened (fst two_ex) LFlag /\ snd (snd two_ex) = [[]; [RBlocked 1; RLeave 1]; []] /\
  r_woken (fst (snd two_ex)) = [].
Proof. split; [exists 10; find_in|]. vm_compute. repeat split. Qed.
