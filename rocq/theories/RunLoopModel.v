(** run_loop.  /repo/src/rpp/rpp/schedulers/run_loop.hpp:30-170, worker.hpp:36-57.
    Any number of threads schedule, dispatch (also from inside tasks), dispose handlers or
    the loop; a thread is the list of its program points.  A section under m_mutex is one
    step.  state_t::dispose is private (it is called by ~state_t): RLDispose stands for it.
    Clock ticks and disposals are actions of some thread, so every clock behaviour that
    moves forward is covered. *)
From Coq Require Import ZArith NArith.
From Verif Require Import Base Concur QueueSpec SchedSpec LoopSpec LoopBase.
Open Scope Z_scope.

Inductive ract :=
| RSched (d : Z) (code h : nat)     (* worker.schedule(delay, ...): defer_to(now() + delay) *)
| RSchedTo (tp : Z) (code h : nat)  (* worker.schedule(time_point, ...) *)
| RDispatch (wait : bool)           (* dispatch() / dispatch_if_ready(), 140-148 *)
| RLDispose                         (* state_t::dispose() *)
| RKill (h : nat)                   (* a handler gets disposed *)
| RTick (d : N).                    (* time passes *)

Inductive ritem :=
| RAct (a : ract)
| RPush (tp : Z) (code h : nat)     (* 42-43 for a new schedulable *)
| RIns (tp : Z) (code h : nat)      (* 45-48 *)
| RNotify                           (* 49, 98: m_cv.notify_one() *)
| RClear                            (* 94-97 *)
| RPop (n : nat) (wait : bool)      (* 54 *)
| RLock (n : nat) (wait : bool)     (* 56-69 under the mutex *)
| RBlocked (n : nat)                (* 57: inside m_cv.wait *)
| RTop (t : task)                   (* 160-161 *)
| RRun (t : task)                   (* 163 *)
| RRet (t : task) (r : sres)        (* 163, queue.hpp:129-141 *)
| RRePush (t : task) (tp : Z)       (* 164, 42-43 *)
| RReIns (t : task) (tp : Z)        (* 45-48 *)
| RLeave (n : nat).                 (* 166 *)

(** m_queue, is_disposed() of state_t, waiters of m_cv, dispatch calls woken up, counters. *)
Record rstate := RState { r_now : Z; r_queue : list task; r_dead : list nat; r_next : nat;
  r_disposed : bool; r_waiting : list nat; r_woken : list nat; r_calls : nat; r_notifies : nat }.
Definition r_setq (s : rstate) q := RState (r_now s) q (r_dead s) (r_next s) (r_disposed s) (r_waiting s) (r_woken s) (r_calls s) (r_notifies s).

Fixpoint remove_nth {A} (i : nat) (l : list A) : list A :=
  match i, l with
  | _, [] => []
  | O, _ :: r => r
  | S j, x :: r => x :: remove_nth j r
  end.
Fixpoint remove_one (n : nat) (l : list nat) : list nat :=
  match l with [] => [] | x :: r => if Nat.eqb x n then r else x :: remove_one n r end.

Section Model.
  Variable kind : nat -> skind.
  Variable beh : nat -> nat -> list ract * sres.
  Variable onerr : nat -> list ract.
  (** Which waiter the k-th notify_one wakes. *)
  Variable choice : nat -> nat.

  (** 87-90 *)
  Definition r_ready (s : rstate) : bool :=
    match r_queue s with [] => false | t :: _ => dead (r_dead s) t || (t_tp t <=? r_now s) end.

  Definition rstep (s : rstate) (it : ritem) : option (rstate * list ritem * list ltev) :=
    let now := r_now s in
    match it with
    | RAct (RSched d code h) => Some (s, [RPush (now + d) code h], [])
    | RAct (RSchedTo tp code h) => Some (s, [RPush tp code h], [])
    | RAct (RDispatch w) =>
        let n := r_calls s in
        Some (RState now (r_queue s) (r_dead s) (r_next s) (r_disposed s) (r_waiting s) (r_woken s) (S n) (r_notifies s),
              [RPop n w; RLeave n], [(now, LEnter n)])
    | RAct RLDispose =>
        if r_disposed s then Some (s, [], [])
        else Some (RState now (r_queue s) (r_dead s) (r_next s) true (r_waiting s) (r_woken s) (r_calls s) (r_notifies s),
                   [RClear; RNotify], [(now, LFlag)])
    | RAct (RKill h) =>
        Some (RState now (r_queue s) (h :: r_dead s) (r_next s) (r_disposed s) (r_waiting s) (r_woken s) (r_calls s) (r_notifies s),
              [], [(now, LDisp h)])
    | RAct (RTick d) =>
        Some (RState (now + Z.of_N d) (r_queue s) (r_dead s) (r_next s) (r_disposed s) (r_waiting s) (r_woken s) (r_calls s) (r_notifies s), [], [])
    | RPush tp code h => if r_disposed s then Some (s, [], []) else Some (s, [RIns tp code h], [])
    | RIns tp code h =>
        let t := Task (r_next s) h (kind code) code 0 tp tp in
        Some (RState now (t_ins t (r_queue s)) (r_dead s) (S (r_next s)) (r_disposed s) (r_waiting s) (r_woken s) (r_calls s) (r_notifies s),
              [RNotify], [(now, LCall VWorker (r_next s) h (kind code) tp)])
    | RNotify =>
        match r_waiting s with
        | [] => Some (RState now (r_queue s) (r_dead s) (r_next s) (r_disposed s) [] (r_woken s) (r_calls s) (S (r_notifies s)), [], [])
        | w :: ws =>
            let i := (choice (r_notifies s) mod length (w :: ws))%nat in
            Some (RState now (r_queue s) (r_dead s) (r_next s) (r_disposed s) (remove_nth i (w :: ws))
                         (nth i (w :: ws) O :: r_woken s) (r_calls s) (S (r_notifies s)), [], [])
        end
    | RClear => Some (r_setq s [], [], [(now, LClear)])
    | RPop n w => if r_disposed s then Some (s, [], []) else Some (s, [RLock n w], [])
    | RLock n w =>
        if w && negb (r_disposed s) && match r_queue s with [] => true | _ => false end then
          Some (RState now (r_queue s) (r_dead s) (r_next s) (r_disposed s) (r_waiting s ++ [n]) (r_woken s) (r_calls s) (r_notifies s), [RBlocked n], [])
        else if r_disposed s then Some (s, [], [])
        else
          match r_queue s with
          | t :: q =>
              if dead (r_dead s) t then Some (r_setq s q, [], [(now, LDrop (t_id t))])
              else if t_tp t <=? now then Some (r_setq s q, [RTop t], [(now, LPick (t_id t)); (now, LBy n)])
              else if w then Some (s, [RPop n w], [])   (* 69: the predicate holds at once, the queue not being empty *)
              else Some (s, [], [])
          | [] => Some (s, [], [])
          end
    | RBlocked n =>
        (* woken up; without a notification only spuriously, which is left out: it changes
           nothing but when the predicate is looked at *)
        if existsb (Nat.eqb n) (r_woken s) then
          Some (RState now (r_queue s) (r_dead s) (r_next s) (r_disposed s) (r_waiting s) (remove_one n (r_woken s)) (r_calls s) (r_notifies s),
                [RLock n true], [])
        else None
    | RTop t =>
        if dead (r_dead s) t then Some (s, [], [(now, LDrop (t_id t))]) else Some (s, [RRun t], [])
    | RRun t =>
        let '(acts, r) := beh (t_code t) (t_runs t) in
        Some (s, map RAct acts ++ [RRet t r], [(now, LStart (t_id t))])
    | RRet t r =>
        match r with
        | RStop => Some (s, [], [(now, LEnd (t_id t) RStop)])
        | RThrow => Some (s, map RAct (onerr (t_h t)), [(now, LEnd (t_id t) RThrow); (now, LErr (t_id t) (t_h t))])
        | RAgain v => Some (s, [RRePush (ran now t v) (new_tp now t v)], [(now, LEnd (t_id t) (RAgain v))])
        end
    | RRePush t tp => if r_disposed s then Some (s, [], []) else Some (s, [RReIns t tp], [])
    | RReIns t tp => Some (r_setq s (t_ins (at_tp t tp) (r_queue s)), [RNotify], [(now, LAgain (t_id t) tp)])
    | RLeave n => Some (s, [], [(now, LLeave n)])
    end.
  Definition r_init (t0 : Z) (progs : list (list ract)) : @gconfig rstate ritem :=
    (RState t0 [] [] 0 false [] [] 0 0, map (map RAct) progs).
End Model.
