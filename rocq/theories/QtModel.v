(** Qt main thread scheduler.
    /repo/src/extensions/rppqt/rppqt/schedulers/main_thread.hpp:31-84; time in nanoseconds.
    Environment, not part of the code: QTimer::singleShot with 0 ms posts to the event loop
    of the application's thread, which handles posted calls in their order; with n > 0 ms
    the call comes not before n ms have passed, timers that are due in any order.
    Simplifications: once there is an application it stays; callables do not run a nested
    event loop; what they do with other schedulers is not modelled. *)
From Coq Require Import ZArith NArith.
From Verif Require Import Base QueueSpec SchedSpec LoopSpec LoopBase StrandModel.
Open Scope Z_scope.

Definition ms : Z := 1000000.

Inductive qact :=
| QFor (d : Z) (code h : nat)    (* worker.schedule(d, ...), 37-51 *)
| QTo (tp : Z) (code h : nat)    (* worker.schedule(tp, ...): worker.hpp:51-57, no defer_to *)
| QDisp (h : nat).               (* the handler (observer) gets disposed *)

Inductive qitem :=
| QAct (a : qact)
| QRet (t : task) (r : sres) (c : Z)    (* invoke, 56-76: fn returns or throws; c: clock before the call (66) *)
| QDefer (t : task) (d : Z).            (* 38-51: defer_for *)

Record qstate := QState {
  q_now : Z;
  q_app : bool;             (* QCoreApplication::instance(), 40 *)
  q_posted : list task;
  q_timers : list task;     (* expiry in t_tp *)
  q_pc : list qitem;        (* the call in progress; [] when none *)
  q_dead : list nat;
  q_next : nat }.

Inductive qmove :=
| QTick (d : N)
| QApp                      (* the application is created *)
| QUser (a : qact)          (* some thread outside the main loop *)
| QPost                     (* the loop handles the next posted call *)
| QTimer (i : nat)          (* the loop handles the i-th timer *)
| QStep.                    (* the call in progress goes on *)

Section Model.
  Variable kind : nat -> skind.
  Variable beh : nat -> nat -> list qact * sres.
  Variable onerr : nat -> list qact.

  (** 38-51: defer_for.  What handler.on_error goes on to do is given back. *)
  Definition q_defer (s : qstate) (t : task) (d : Z) : qstate * list qact * list ltev :=
    let now := q_now s in
    if negb (q_app s) then (s, onerr (t_h t), [(now, LErr (t_id t) (t_h t))])
    else
      let n := Z.max 0 d / ms in   (* 47: duration_cast truncates *)
      if n =? 0 then
        (QState now (q_app s) (q_posted s ++ [t]) (q_timers s) (q_pc s) (q_dead s) (q_next s), [], [(now, LPick (t_id t))])
      else
        (QState now (q_app s) (q_posted s) (q_timers s ++ [at_tp t (now + n * ms)]) (q_pc s) (q_dead s) (q_next s), [],
         [(now, LAgain (t_id t) (now + n * ms))]).

  Definition q_fresh (s : qstate) : qstate :=
    QState (q_now s) (q_app s) (q_posted s) (q_timers s) (q_pc s) (q_dead s) (S (q_next s)).
  Definition q_with (s : qstate) (pc : list qitem) : qstate :=
    QState (q_now s) (q_app s) (q_posted s) (q_timers s) pc (q_dead s) (q_next s).

  Definition q_act (s : qstate) (a : qact) : qstate * list qact * list ltev :=
    let now := q_now s in
    match a with
    | QFor d code h =>
        let '(s', acts, ls) := q_defer (q_fresh s) (Task (q_next s) h (kind code) code 0 (now + d) (now + d)) d in
        (s', acts, (now, LCall VWorker (q_next s) h (kind code) (now + d)) :: ls)
    | QTo tp code h =>
        let '(s', acts, ls) := q_defer (q_fresh s) (Task (q_next s) h (kind code) code 0 tp tp) (tp - now) in
        (s', acts, (now, LCall VWorker (q_next s) h (kind code) tp) :: ls)
    | QDisp h => (QState now (q_app s) (q_posted s) (q_timers s) (q_pc s) (h :: q_dead s) (q_next s), [], [(now, LDisp h)])
    end.

  (** 48-49: the loop calls the lambda of the task taken from the loop. *)
  Definition q_call (s : qstate) (t : task) : qstate * list ltev :=
    let now := q_now s in
    if dead (q_dead s) t then (s, [(now, LDrop (t_id t))])
    else
      let '(acts, r) := beh (t_code t) (t_runs t) in
      (q_with s (map QAct acts ++ [QRet t r now]), [(now, LStart (t_id t))]).

  (** Delay with which the task is put into the loop again: 60, 68, 75. *)
  Definition q_delay (now c : Z) (t : task) (v : Z) : Z :=
    match t_k t with KNow => v | KThis => c + v - now | KTo => v - now end.

  Definition q_move (s : qstate) (m : qmove) : option (qstate * list ltev) :=
    let now := q_now s in
    match m with
    | QTick d => Some (QState (now + Z.of_N d) (q_app s) (q_posted s) (q_timers s) (q_pc s) (q_dead s) (q_next s), [])
    | QApp => Some (QState now true (q_posted s) (q_timers s) (q_pc s) (q_dead s) (q_next s), [])
    (* what on_error does on that thread: further moves *)
    | QUser a => let '(s', _, ls) := q_act s a in Some (s', ls)
    | QPost =>
        match q_pc s, q_posted s with
        | [], t :: r => Some (q_call (QState now (q_app s) r (q_timers s) [] (q_dead s) (q_next s)) t)
        | _, _ => None
        end
    | QTimer i =>
        match q_pc s, nth_error (q_timers s) i with
        | [], Some t =>
            if t_tp t <=? now
            then Some (q_call (QState now (q_app s) (q_posted s) (del i (q_timers s)) [] (q_dead s) (q_next s)) t)
            else None
        | _, _ => None
        end
    | QStep =>
        match q_pc s with
        | [] => None
        | QAct a :: pc =>
            let '(s', acts, ls) := q_act (q_with s pc) a in Some (q_with s' (map QAct acts ++ pc), ls)
        | QRet t r c :: pc =>
            (* an exception leaves the lambda *)
            let its := match r with RAgain v => [QDefer (ran now t v) (q_delay now c t v)] | _ => [] end in
            Some (q_with s (its ++ pc), [(now, LEnd (t_id t) r)])
        | QDefer t d :: pc =>
            let '(s', acts, ls) := q_defer (q_with s pc) t d in Some (q_with s' (map QAct acts ++ pc), ls)
        end
    end.

  Definition q_init (t0 : Z) (app : bool) : qstate := QState t0 app [] [] [] [] 0.

  Inductive q_exec (t0 : Z) (app : bool) : list ltev -> qstate -> Prop :=
  | q_exec_0 : q_exec t0 app [] (q_init t0 app)
  | q_exec_S tr s m ls s' : q_exec t0 app tr s -> q_move s m = Some (s', ls) -> q_exec t0 app (tr ++ ls) s'.

  Fixpoint q_run (s : qstate) (ms : list qmove) : list ltev * qstate :=
    match ms with
    | [] => ([], s)
    | m :: ms => match q_move s m with
                 | Some (s', ls) => let '(tr, s2) := q_run s' ms in (ls ++ tr, s2)
                 | None => q_run s ms
                 end
    end.
End Model.
