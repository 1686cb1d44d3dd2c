(** test_scheduler.  /repo/src/rpp/rpp/schedulers/test_scheduler.hpp:18-110.
    One thread; its control stack is a list of program points, so tasks may schedule tasks
    (each schedule call drains the queue on the spot, 79-80) and advance the time
    themselves.  The static s_current_time (21) is not shared with other schedulers;
    time_advance takes a non-negative duration. *)
From Coq Require Import ZArith NArith.
From Verif Require Import Base Concur QueueSpec SchedSpec LoopSpec LoopBase.
Open Scope Z_scope.

Inductive xact :=
| XSched (d : Z) (code h : nat)   (* worker.schedule(d, fn, handler), 75-82 *)
| XAdvance (d : N)                (* time_advance, 102-106 *)
| XDispose (h : nat).             (* the handler (observer) gets disposed *)

Inductive xitem :=
| XAct (a : xact)
| XDrain                          (* 36-48 *)
| XRun (t : task)                 (* 49-50 *)
| XRet (t : task) (r : sres)      (* 50, queue.hpp:129-141 *)
| XAgain (t : task) (tp : Z).     (* 52-56 *)

Record xstate := XState { x_now : Z; x_queue : list task; x_dead : list nat; x_next : nat }.

Section Model.
  Variable kind : nat -> skind.
  Variable beh : nat -> nat -> list xact * sres.
  Variable onerr : nat -> list xact.

  Definition xstep (s : xstate) (it : xitem) : option (xstate * list xitem * list ltev) :=
    let now := x_now s in
    match it with
    | XAct (XSched d code h) =>
        let t := Task (x_next s) h (kind code) code 0 (now + d) (now + d) in
        Some (XState now (t_ins t (x_queue s)) (x_dead s) (S (x_next s)), [XDrain],
              [(now, LCall VWorker (x_next s) h (kind code) (now + d))])
    | XAct (XAdvance d) =>
        Some (XState (now + Z.of_N d) (x_queue s) (x_dead s) (x_next s), [XDrain], [(now, LAdv (Z.of_N d))])
    | XAct (XDispose h) =>
        Some (XState now (x_queue s) (h :: x_dead s) (x_next s), [], [(now, LDisp h)])
    | XDrain =>
        match x_queue s with
        | [] => Some (s, [], [])
        | t :: q =>
            if now <? t_tp t then Some (s, [], [])
            else
              let s' := XState now q (x_dead s) (x_next s) in
              if dead (x_dead s) t then Some (s', [XDrain], [(now, LDrop (t_id t))])
              else Some (s', [XRun t; XDrain], [(now, LPick (t_id t))])
        end
    | XRun t =>
        let '(acts, r) := beh (t_code t) (t_runs t) in
        Some (s, map XAct acts ++ [XRet t r], [(now, LStart (t_id t))])
    | XRet t r =>
        match r with
        | RStop => Some (s, [], [(now, LEnd (t_id t) RStop)])
        | RThrow => Some (s, map XAct (onerr (t_h t)), [(now, LEnd (t_id t) RThrow); (now, LErr (t_id t) (t_h t))])
        | RAgain v => Some (s, [XAgain (ran now t v) (new_tp now t v)], [(now, LEnd (t_id t) (RAgain v))])
        end
    | XAgain t tp =>
        if dead (x_dead s) t then Some (s, [], [(now, LDrop (t_id t))])
        else
          let tp' := Z.max now tp in
          Some (XState now (t_ins (at_tp t tp') (x_queue s)) (x_dead s) (x_next s), [], [(now, LAgain (t_id t) tp')])
    end.
  Definition x_init (t0 : Z) (prog : list xact) : @gconfig xstate xitem := (XState t0 [] [] 0, [map XAct prog]).
End Model.
