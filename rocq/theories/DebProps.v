(** Final statements for debounce (C45, C46). *)
From Verif Require Import Base Machine MachineProofs Concur ObserverModel ChainModel ChainProofs.
From Verif Require Import MultiSpec MultiLin MultiRace MultiProps DelaySpec DebSpec DebModel DebProofs.

(** Every execution with a scheduler that does not run tasks inside schedule(), for a timer that
    may be late ([prompt = false]) or never is. *)
Theorem C45_debounce : forall V (D : machine V), lawful D -> forall prompt period src d0 ticks kills tr s ts, mdisp D d0 = false ->
  gexec (bstep D false prompt period) (b_init D src d0, b_threads ticks kills) tr (s, ts) ->
  (exists rest, clip src = map fst (ins tr) ++ rest) /\
  (exists n o, n <= b_now s /\ (mdisp D (b_d s) = false -> n = b_now s) /\ debounced prompt period (Some n) (ins tr) (shown tr ++ o)) /\
  serial false tr /\ stops tr /\
  (b_d s = mrun D d0 (map fst (shown tr)) \/ kills <> 0 /\ b_d s = mkill D (mrun D d0 (map fst (shown tr)))) /\
  ((forall ls c', ~ gstep (bstep D false prompt period) (s, ts) ls c') -> (forall e t, In (e, t) (ins tr) -> t + period <= b_now s) ->
   mdisp D (b_d s) = false -> map fst (ins tr) = clip src /\ debounced prompt period None (ins tr) (shown tr)).
Proof.
  intros V D LD prompt period src d0 ticks kills tr s ts DD X.
  destruct (deb_main D prompt period src d0 kills LD ticks tr s ts DD X) as (C & T).
  split; [exact (c_prefix _ _ _ _ _ _ _ C)|]. split; [|split; [|split; [|split]]].
  - destruct T as [(LV & [_ _ P _])|(LV & n & o & P1 & P2)].
    + apply phase_deb in P as (o & P). exists (b_now s), o. auto.
    + exists n, o. split; auto. split; [congruence|auto].
  - exact (c_ser _ _ _ _ _ _ _ C).
  - exact (c_stop _ _ _ _ _ _ _ C).
  - destruct (c_d _ _ _ _ _ _ _ C) as [H|(H & _ & H1)]; auto.
  - intros ST TI LV. eapply (deb_quiet D prompt period src d0 kills LD); eauto.
Qed.
Print Assumptions C45_debounce.

(** With a timer that is never late, and no event exactly [period] after a value, the result is
    the function [outcome] of the timed events. *)
Theorem C45_exact : forall V (D : machine V), lawful D -> forall period src d0 ticks kills tr s ts, mdisp D d0 = false ->
  gexec (bstep D false true period) (b_init D src d0, b_threads ticks kills) tr (s, ts) ->
  (forall ls c', ~ gstep (bstep D false true period) (s, ts) ls c') -> (forall e t, In (e, t) (ins tr) -> t + period <= b_now s) ->
  mdisp D (b_d s) = false -> untied period (ins tr) -> map fst (ins tr) = clip src /\ shown tr = outcome period (ins tr).
Proof.
  intros V D LD period src d0 ticks kills tr s ts DD X ST TI LV U.
  destruct (deb_quiet D true period src d0 kills LD ticks tr s ts DD X ST TI LV) as (H1 & H2). split; auto. now apply outcome_ok.
Qed.
Print Assumptions C45_exact.

(** 1 at 0, 2 at 2, then silence until 9, 3 at 9, completion at 10; d = 5. *)
Definition db_src : list (ev nat) := [Next 1; Next 2; Next 3; Done].
Definition db_cfg := (b_init plain db_src o_init, b_threads 10 0).
Definition db_ticks (from n : nat) : list (nat * nat) := map (fun k => (from + k, 1)) (seq 0 n).
Definition db_ex := gtol (bstep plain false true 5)
  (reps ([(0, 3)] ++ db_ticks 2 2 ++ [(0, 1); (1, 2)] ++ db_ticks 4 3 ++ [(1, 9)] ++ db_ticks 7 2 ++ [(1, 9)] ++ db_ticks 9 2 ++ [(0, 3)] ++ db_ticks 11 1 ++ [(0, 9); (1, 3)])) db_cfg.
Example C45_case : gexec (bstep plain false true 5) db_cfg (fst db_ex) (snd db_ex) /\
  ins (fst db_ex) = [(Next 1, 0); (Next 2, 2); (Next 3, 9); (Done, 10)] /\
  shown (fst db_ex) = [(Next 2, 7); (Next 3, 10); (Done, 10)] /\ shown (fst db_ex) = outcome 5 (ins (fst db_ex)) /\
  o_log (b_d (fst (snd db_ex))) = [Next 2; Next 3; Done].
Proof. split; [apply gtol_sound|]. vm_compute. repeat split. Qed.

(** A pending value can be lost at completion: the timer has taken it (95-98) but not yet the
    observer's mutex (79), on_completed finds nothing to flush (141) and completes first. *)
Definition lost_src : list (ev nat) := [Next 1; Done].
Definition lost_cfg := (b_init plain lost_src o_init, b_threads 1 0).
Definition lost_ex := gtol (bstep plain false true 1) (reps [(0, 3); (2, 1); (1, 3); (0, 9); (1, 9)]) lost_cfg.
Theorem C45_lost_refuted : exists tr c, gexec (bstep plain false true 1) lost_cfg tr c /\
  ins tr = [(Next 1, 0); (Done, 1)] /\ shown tr = [(Done, 1)] /\ b_src (fst c) = [] /\ b_val (fst c) = None /\ b_w (fst c) = None.
Proof. exists (fst lost_ex), (snd lost_ex). split; [apply gtol_sound|]. vm_compute. repeat split. Qed.
Print Assumptions C45_lost_refuted.

(** A scheduler that runs the task inside schedule() (immediate; trampoline when idle): after the
    first value nothing is ever accepted or shown, whatever the source, the time and the
    disposals: the thread waits for the mutex it holds (50, 56, 88). *)
Theorem C46_never_refuted : forall V (D : machine V), lawful D -> forall prompt period v src d0 ticks kills tr s ts, mdisp D d0 = false ->
  gexec (bstep D true prompt period) (b_init D (Next v :: src) d0, b_threads ticks kills) tr (s, ts) ->
  length (ins tr) <= 1 /\ shown tr = [].
Proof.
  intros V D LD prompt period v src d0 ticks kills tr s ts DD X.
  destruct (blocked_main D prompt period v src d0 LD ticks kills tr s ts DD X) as (_ & _ & _ & _ & H). exact H.
Qed.
Print Assumptions C46_never_refuted.

(** A run that ends this way: the value is due, its thread is not finished and no step exists. *)
Definition sync_cfg := (b_init plain db_src o_init, b_threads 3 0).
Definition sync_ex := gtol (bstep plain true false 0) (reps (db_ticks 2 3 ++ [(0, 9)])) sync_cfg.
Theorem C46_deadlock_refuted : exists tr c, gexec (bstep plain true false 0) sync_cfg tr c /\
  ins tr = [(Next 1, 3)] /\ shown tr = [] /\ b_now (fst c) = 3 /\ In [TSrc] (snd c) /\
  forall ls c', ~ gstep (bstep plain true false 0) c ls c'.
Proof.
  exists (fst sync_ex), (snd sync_ex). split; [apply gtol_sound|].
  assert (E : snd sync_ex = (fst (snd sync_ex), [[TSrc]; [TWork]; []; []; []])) by (vm_compute; reflexivity).
  assert (NS : bstep plain true false 0 (fst (snd sync_ex)) TSrc = None /\ bstep plain true false 0 (fst (snd sync_ex)) TWork = None) by (vm_compute; auto).
  split; [vm_compute; reflexivity|]. split; [vm_compute; reflexivity|]. split; [vm_compute; reflexivity|]. split; [rewrite E; now left|].
  rewrite E. clear E. revert NS. generalize (fst (snd sync_ex)) as s0. intros s0 (N1 & N2) ls c' G. inversion G as [s ts1 it rest ts2 s' its ls' I E1 E2]; subst.
  destruct ts1 as [|t1 [|t2 [|t3 [|t4 [|t5 [|t6 ts1]]]]]]; cbn [app] in *; match goal with H : _ = [[TSrc]; _; _; _; _] |- _ => inversion H; subst end;
    [rewrite N1 in I|rewrite N2 in I]; discriminate.
Qed.
Print Assumptions C46_deadlock_refuted.
