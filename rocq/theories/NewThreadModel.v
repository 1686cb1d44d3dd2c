(** new_thread.  /repo/src/rpp/rpp/schedulers/new_thread.hpp:30-140, details/queue.hpp:129-165,
    221-278, current_thread.hpp:148-183 (a queue is installed on the loop's thread, 67).
    One thread runs the loop; any number of threads use copies of the worker, dispose
    handlers and let time pass.  A section under the mutex is one step.
    - Disposal takes no lock, but the checks of is_disposed (80, 103) are followed by nothing
      that looks at the flag before the task is out of the queue: check and pop are one step.
    - wait_for (90) ends at the time point it was computed from; std::condition_variable
      reads the clock once more, so it may end later.
    - Spurious wake-ups are an action of some thread (NSpur).
    - ~state_t runs once all copies of the worker are gone: NStop waits for schedule calls
      in progress, and later schedule actions are void.  Thread creation is not modelled. *)
From Coq Require Import ZArith NArith.
From Verif Require Import Base Concur QueueSpec SchedSpec LoopSpec LoopBase.
Open Scope Z_scope.

Inductive nact :=
| NSub (d : Z) (code h : nat)      (* worker.schedule(delay, ...): defer_to(now() + delay) *)
| NSubTo (tp : Z) (code h : nat)   (* worker.schedule(time_point, ...) *)
| NKill (h : nat)                  (* a handler gets disposed *)
| NTick (d : N)                    (* time passes *)
| NLook                            (* code on the loop's thread calls now(), utils.hpp:22-25 *)
| NStop                            (* ~state_t, 37-48 *)
| NSpur.                           (* spurious wake-up of the loop *)

(** What tasks do: the same, and scheduling with current_thread, which finds the queue of the loop. *)
Inductive tact := TAct (a : nact) | TNest (d : Z) (code h : nat).

Inductive nitem :=
| NAct (a : nact)
| NNest (d : Z) (code h : nat)     (* current_thread.hpp:148-167 *)
| NPush (tp : Z) (code h : nat)    (* 53, queue.hpp:250-278 *)
| NNote                            (* queue.hpp:254-257, 46: notify *)
| NFresh (id : nat)                (* 54 *)
| NTop                             (* 71-97 *)
| NWait                            (* 75: inside cv.wait *)
| NWaitFor (deadline : Z)          (* 90: inside cv.wait_for *)
| NRun (t : task)                  (* 101 *)
| NRet (t : task) (r : sres)       (* 101, queue.hpp:143-155 *)
| NRes (t : task) (v : Z)          (* 103-108 *)
| NReIns (t : task) (tp : Z).      (* 109 *)

(** Clock, s_last_now_time of the loop's thread, queue, disposed handlers, next task,
    has_fresh_data, schedule calls in progress, is_stoping, loop blocked on cv, notified. *)
Record nstate := NState { n_now : Z; n_last : Z; n_queue : list task; n_dead : list nat; n_next : nat;
  n_fresh : bool; n_pend : nat; n_stop : bool; n_wait : bool; n_woken : bool }.

Definition n_setq (s : nstate) q := NState (n_now s) (n_last s) q (n_dead s) (n_next s) (n_fresh s) (n_pend s) (n_stop s) (n_wait s) (n_woken s).
Definition n_look (s : nstate) := NState (n_now s) (n_now s) (n_queue s) (n_dead s) (n_next s) (n_fresh s) (n_pend s) (n_stop s) (n_wait s) (n_woken s).
Definition n_setw (s : nstate) w k := NState (n_now s) (n_last s) (n_queue s) (n_dead s) (n_next s) (n_fresh s) (n_pend s) (n_stop s) w k.
Definition n_setp (s : nstate) p := NState (n_now s) (n_last s) (n_queue s) (n_dead s) (n_next s) (n_fresh s) p (n_stop s) (n_wait s) (n_woken s).
Definition n_setf (s : nstate) f := NState (n_now s) (n_last s) (n_queue s) (n_dead s) (n_next s) f (n_pend s) (n_stop s) (n_wait s) (n_woken s).

(** advanced_call::can_run_immediately, queue.hpp:59-67. *)
Definition can_now (k : skind) (v : Z) : bool := match k with KTo => false | _ => v =? 0 end.
(** Operator ! of the queue: is_empty, queue.hpp:237. *)
Definition emptyb {A} (l : list A) : bool := match l with [] => true | _ => false end.
Definition tact_item (a : tact) : nitem := match a with TAct a => NAct a | TNest d code h => NNest d code h end.

Section Model.
  Variable kind : nat -> skind.
  Variable beh : nat -> nat -> list tact * sres.
  Variable onerr : nat -> list tact.

  Definition n_new (s : nstate) (tp : Z) (code h : nat) : nstate :=
    let t := Task (n_next s) h (kind code) code 0 tp tp in
    NState (n_now s) (n_last s) (t_ins t (n_queue s)) (n_dead s) (S (n_next s)) (n_fresh s) (n_pend s) (n_stop s) (n_wait s) (n_woken s).

  (** 71-97, the loop's thread not waiting. *)
  Definition n_top (s : nstate) : nstate * list nitem * list ltev :=
    let now := n_now s in
    match n_queue s with
    | [] => if n_stop s then (s, [], [(now, LExit)]) else (n_setw s true false, [NWait], [])
    | t :: q =>
        if dead (n_dead s) t then (n_setq s q, [NTop], [(now, LDrop (t_id t))])
        else
          let s1 := if n_last s <? t_tp t then n_look s else s in
          if (n_last s <? t_tp t) && (now <? t_tp t) then (n_setw s1 true false, [NWaitFor (t_tp t)], [])
          else (n_setf (n_setq s1 q) (negb (emptyb q)), [NRun t], [(now, LPick (t_id t))])
    end.

  Definition nstep (s : nstate) (it : nitem) : option (nstate * list nitem * list ltev) :=
    let now := n_now s in
    match it with
    | NAct (NSub d code h) =>
        if n_stop s then Some (s, [], []) else Some (n_setp s (S (n_pend s)), [NPush (now + d) code h], [])
    | NAct (NSubTo tp code h) =>
        if n_stop s then Some (s, [], []) else Some (n_setp s (S (n_pend s)), [NPush tp code h], [])
    | NAct (NKill h) =>
        Some (NState now (n_last s) (n_queue s) (h :: n_dead s) (n_next s) (n_fresh s) (n_pend s) (n_stop s) (n_wait s) (n_woken s),
              [], [(now, LDisp h)])
    | NAct (NTick d) =>
        Some (NState (now + Z.of_N d) (n_last s) (n_queue s) (n_dead s) (n_next s) (n_fresh s) (n_pend s) (n_stop s) (n_wait s) (n_woken s), [], [])
    | NAct NLook => Some (n_look s, [], [])
    | NAct NStop =>
        if n_stop s then Some (s, [], [])
        else if Nat.eqb (n_pend s) 0 then
          Some (NState now (n_last s) (n_queue s) (n_dead s) (n_next s) (n_fresh s) (n_pend s) true (n_wait s) (n_woken s),
                [NNote], [(now, LStop)])
        else None
    | NAct NSpur | NNote => Some (n_setw s (n_wait s) (n_wait s || n_woken s), [], [])
    | NNest d code h =>
        if dead (n_dead s) (Task 0 h KNow 0 0 0 0) then Some (s, [], [])
        else Some (n_new (n_look s) (now + d) code h, [NNote], [(now, LCall VNested (n_next s) h (kind code) (now + d))])
    | NPush tp code h =>
        Some (n_new s tp code h, [NNote; NFresh (n_next s)], [(now, LCall VWorker (n_next s) h (kind code) tp)])
    | NFresh id => Some (n_setf (n_setp s (pred (n_pend s))) true, [], [(now, LFresh id)])
    | NTop => Some (n_top s)
    | NWait =>
        if n_woken s then
          if emptyb (n_queue s) && negb (n_stop s) then Some (n_setw s true false, [NWait], [])
          else Some (n_top (n_setw s false false))
        else None
    | NWaitFor x =>
        if x <=? now then Some (n_setw (n_look s) false false, [NTop], [])
        else if n_woken s then
          match n_queue s with
          | [] => None   (* top() of an empty queue: undefined; see n_wait_top *)
          | t :: _ =>
              if dead (n_dead s) t then Some (n_setw s false false, [NTop], [])
              else if t_tp t <=? now then Some (n_setw (n_look s) false false, [NTop], [])
              else Some (n_setw (n_look s) true false, [NWaitFor x], [])
          end
        else None
    | NRun t =>
        let '(acts, r) := beh (t_code t) (t_runs t) in
        Some (s, map tact_item acts ++ [NRet t r], [(now, LStart (t_id t))])
    | NRet t r =>
        match r with
        | RStop => Some (s, [NTop], [(now, LEnd (t_id t) RStop)])
        | RThrow => Some (s, map tact_item (onerr (t_h t)) ++ [NTop], [(now, LEnd (t_id t) RThrow); (now, LErr (t_id t) (t_h t))])
        | RAgain v => Some (s, [NRes (ran now t v) v], [(now, LEnd (t_id t) (RAgain v))])
        end
    | NRes t v =>
        if dead (n_dead s) t then Some (s, [NTop], [(now, LDrop (t_id t))])
        else if can_now (t_k t) v && negb (n_fresh s) then Some (s, [NRun t], [(now, LDirect (t_id t))])
        else Some (match t_k t with KNow => n_look s | _ => s end, [NReIns t (new_tp now t v)], [])
    | NReIns t tp => Some (n_setq s (t_ins (at_tp t tp) (n_queue s)), [NTop], [(now, LAgain (t_id t) tp)])
    end.

  (** The loop's thread and the others.  s_last_now_time starts at the epoch. *)
  Definition n_init (t0 t1 : Z) (progs : list (list nact)) : @gconfig nstate nitem :=
    (NState t0 t1 [] [] 0 false 0 false false false, [NTop] :: map (map NAct) progs).
End Model.
