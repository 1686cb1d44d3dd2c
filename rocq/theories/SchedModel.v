(** current_thread and immediate as one machine: what a single thread executes when it
    schedules tasks on these two schedulers, from the outside or from inside tasks.
    /repo/src/rpp/rpp/schedulers/current_thread.hpp:85-221, immediate.hpp:64-83,
    details/utils.hpp:20-161, details/queue.hpp:59-67, 96-169, worker.hpp:36-57.
    The control stack is explicit (a list of program points), so recursion and endless
    programs are covered; the clock may advance arbitrarily between steps.  The queue is
    a sorted list (C13 shows that the linked list is one). *)
From Coq Require Import ZArith.
From Verif Require Import Base QueueSpec SchedSpec.
Open Scope Z_scope.

(** What user code (a callable, or the program outside) does. *)
Inductive act :=
| ASched (w : sched) (d : Z) (code h : nat)      (* worker.schedule(delay, fn, handler) *)
| ASchedTo (w : sched) (tp : Z) (code h : nat)   (* worker.schedule(time_point, fn, handler) *)
| ADispose (h : nat)
| AGuard (body : list act).                      (* own_queue_and_drain_finally_if_not_owned, 189-215 *)

(** A schedulable: identity, callable, handler, number of finished runs, time point. *)
Record entry := Entry { e_id : nat; e_code : nat; e_h : nat; e_runs : nat; e_tp : Z }.
Definition with_tp (e : entry) (tp : Z) := Entry (e_id e) (e_code e) (e_h e) (e_runs e) tp.
Definition again (e : entry) := Entry (e_id e) (e_code e) (e_h e) (S (e_runs e)) (e_tp e).

(** Local variables of the three overloads of immediate_scheduling_while_condition:
    timepoint (49), duration (80), optional timepoint and duration (121-127). *)
Inductive ldat := LThis (tp : Z) | LNow (d : Z) | LTo (tp : option Z) (d : Z).

Inductive item :=
| IAct (a : act)
| IDefer (e : entry) (d : Z)                              (* current_thread.hpp:181 -> 148 *)
| IStart (w : sched) (e : entry) (d : Z)                  (* utils.hpp:43-49 / 80-86 / 121-127 *)
| ILoopHead (w : sched) (e : entry) (l : ldat)            (* 50-53 / 86-89 / 128-131 *)
| ILoopSleep (w : sched) (e : entry) (l : ldat)           (* 55 / 91-93 / 133-143 *)
| ILoopChk (w : sched) (e : entry) (l : ldat) (slept : bool)
| ILoopRun (w : sched) (e : entry) (l : ldat)             (* 60 / 101 / 148 *)
| ILoopRet (w : sched) (e : entry) (l : ldat) (r : sres)  (* 60-69 / 101-110 / 148-157 *)
| IAfter (w : sched) (e : entry) (tp : option Z)          (* current_thread.hpp:159-163 *)
| IDrain                                                  (* 107-111 *)
| ITopSleep (e : entry)                                   (* 113 *)
| ITopRun (e : entry)                                     (* 117, queue.hpp:143-155 *)
| ITopRet (e : entry) (r : sres)
| ITopRes (e : entry) (v : Z)                             (* 119-136 *)
| IGuardEnd (drain : bool).                               (* 198-202 *)

(** Clock, s_last_now_time (utils.hpp:20), get_queue() (91-95; None is the null pointer),
    disposed handlers, counter for identities. *)
Record state := State { s_clock : Z; s_last : Z; s_queue : option (list entry); s_dead : list nat; s_next : nat }.
Definition set_queue (s : state) q := State (s_clock s) (s_last s) q (s_dead s) (s_next s).
Definition set_clock (s : state) c := State c (s_last s) (s_queue s) (s_dead s) (s_next s).
Definition bump (s : state) := State (s_clock s) (s_last s) (s_queue s) (s_dead s) (S (s_next s)).
Definition is_dead (s : state) (h : nat) : bool := existsb (Nat.eqb h) (s_dead s).

(** utils.hpp:22-25 *)
Definition do_now (s : state) : state := State (s_clock s) (s_clock s) (s_queue s) (s_dead s) (s_next s).
(** utils.hpp:27-36 *)
Definition sleep_until (s : state) (tp : Z) : state * bool :=
  if tp <=? s_last s then (s, false)
  else (State (Z.max (s_clock s) tp) (Z.max (s_clock s) tp) (s_queue s) (s_dead s) (s_next s), s_clock s <? tp).
(** std::this_thread::sleep_for *)
Definition sleep_for (s : state) (d : Z) : state := set_clock s (s_clock s + Z.max 0 d).

(** queue.hpp:250-278 as established by C13. *)
Fixpoint q_ins (e : entry) (q : list entry) : list entry :=
  match q with
  | [] => [e]
  | x :: r => if e_tp e <? e_tp x then e :: x :: r else x :: q_ins e r
  end.
Definition emplace (s : state) (e : entry) (tp : Z) : state :=
  match s_queue s with
  | Some q => set_queue s (Some (q_ins (with_tp e tp) q))
  | None => s
  end.
Definition queue_empty (s : state) : bool := match s_queue s with Some [] => true | _ => false end.

Section Model.
  (** Return type of each callable and what its k-th run does. *)
  Variable kind : nat -> skind.
  Variable beh : nat -> nat -> list act * sres.
  (** What handler h does in on_error. *)
  Variable onerr : nat -> list act.

  (** handle_advanced_call, queue.hpp:96-109, 157-160 *)
  Definition handle (s : state) (e : entry) (v : Z) : state * Z :=
    match kind (e_code e) with
    | KNow => (do_now s, s_clock s + v)
    | KThis => (s, e_tp e + v)
    | KTo => (s, v)
    end.

  (** current_thread.hpp:148-167 for the schedulable e. *)
  Definition ct_defer (s : state) (e : entry) (d : Z) : state * list item * list sev :=
    if is_dead s (e_h e) then (s, [], [EDrop (e_id e)])
    else match s_queue s with
         | None => (set_queue s (Some []), [IStart CT e d], [])
         | Some _ => (emplace (do_now s) e (s_clock s + d), [], [ESubmit (e_id e) (s_clock s + d)])
         end.

  Definition loop_cond (s : state) (w : sched) : bool :=
    match w with IMM => true | CT => queue_empty s end.

  Definition tstep (s : state) (it : item) : state * list item * list sev :=
    match it with
    | IAct (ADispose h) =>
        (State (s_clock s) (s_last s) (s_queue s) (h :: s_dead s) (s_next s), [], [EDisp h])
    | IAct (AGuard body) =>
        match s_queue s with
        | None => (set_queue s (Some []), map IAct body ++ [IGuardEnd true], [])
        | Some _ => (s, map IAct body ++ [IGuardEnd false], [])
        end
    | IAct (ASched w d code h) =>
        let e := Entry (s_next s) code h 0 0 in
        let lab := ECall w (s_next s) h (kind code) d in
        match w with
        | CT => let '(s', its, ls) := ct_defer (bump s) e d in (s', its, lab :: ls)
        | IMM => (bump s, [IStart IMM e d], [lab])
        end
    | IAct (ASchedTo w tp code h) =>
        let e := Entry (s_next s) code h 0 0 in
        let lab := ECallTo w (s_next s) h (kind code) tp in
        match w with
        | CT =>
            if is_dead s h then (bump s, [], [lab; EDrop (s_next s)])
            else match s_queue s with
                 | Some _ => (emplace (bump s) e tp, [], [lab; ESubmit (s_next s) tp])
                 | None => (do_now (bump s), [IDefer e (tp - s_clock s)], [lab])
                 end
        | IMM => (bump s, [IStart IMM e (tp - s_clock s)], [lab])
        end
    | IDefer e d => ct_defer s e d
    | IStart w e d =>
        match kind (e_code e) with
        | KThis => (match w with CT => do_now s | IMM => s end, [ILoopHead w e (LThis (s_clock s + d))], [])
        | KNow => (s, [ILoopHead w e (LNow d)], [])
        | KTo => (s, [ILoopHead w e (LTo None d)], [])
        end
    | ILoopHead w e l =>
        if loop_cond s w then
          if is_dead s (e_h e) then (s, [IAfter w e None], [EDrop (e_id e)])
          else (s, [ILoopSleep w e l], [])
        else match l with
             | LThis tp => (s, [IAfter w e (Some tp)], [])
             | LNow d => (do_now s, [IAfter w e (Some (s_clock s + d))], [])
             | LTo tp _ => (s, [IAfter w e tp], [])
             end
    | ILoopSleep w e l =>
        match l with
        | LThis tp | LTo (Some tp) _ =>
            let '(s', slept) := sleep_until s tp in (s', [ILoopChk w e l slept], [])
        | LNow d | LTo None d =>
            if 0 <? d then (sleep_for s d, [ILoopChk w e l true], [])
            else (s, [ILoopChk w e l false], [])
        end
    | ILoopChk w e l slept =>
        if slept && is_dead s (e_h e) then (s, [IAfter w e None], [EDrop (e_id e)])
        else (s, [ILoopRun w e l], [])
    | ILoopRun w e l =>
        let '(acts, r) := beh (e_code e) (e_runs e) in
        (s, map IAct acts ++ [ILoopRet w e l r], [EStart w (e_id e)])
    | ILoopRet w e l r =>
        match r with
        | RStop => (s, [IAfter w e None], [EEnd w (e_id e) r])
        | RThrow => (s, map IAct (onerr (e_h e)) ++ [IAfter w e None], [EEnd w (e_id e) r; EErr (e_id e) (e_h e)])
        | RAgain v =>
            (s, [ILoopHead w (again e) (match l with LThis tp => LThis (tp + v) | LNow _ => LNow v | LTo _ d => LTo (Some v) d end)],
             [EEnd w (e_id e) r])
        end
    | IAfter IMM _ _ => (s, [], [])
    | IAfter CT e None => (s, [IDrain], [])
    | IAfter CT e (Some tp) =>
        if is_dead s (e_h e) then (s, [IDrain], [EDrop (e_id e)])
        else (emplace s e tp, [IDrain], [ESubmit (e_id e) tp])
    | IDrain =>
        match s_queue s with
        | Some (e :: q) =>
            if is_dead s (e_h e) then (set_queue s (Some q), [IDrain], [EDrop (e_id e)])
            else (set_queue s (Some q), [ITopSleep e; IDrain], [EPick (e_id e)])
        | _ => (set_queue s None, [], [])
        end
    | ITopSleep e => (fst (sleep_until s (e_tp e)), [ITopRun e], [])
    | ITopRun e =>
        let '(acts, r) := beh (e_code e) (e_runs e) in
        (s, map IAct acts ++ [ITopRet e r], [EStart CT (e_id e)])
    | ITopRet e r =>
        match r with
        | RStop => (s, [], [EEnd CT (e_id e) r])
        | RThrow => (s, map IAct (onerr (e_h e)), [EEnd CT (e_id e) r; EErr (e_id e) (e_h e)])
        | RAgain v => (s, [ITopRes (again e) v], [EEnd CT (e_id e) r])
        end
    | ITopRes e v =>
        if is_dead s (e_h e) then (s, [], [EDrop (e_id e)])
        else if queue_empty s then
          match kind (e_code e) with
          | KNow => (sleep_for s v, [ITopRun e], [EAgain (e_id e)])
          | _ => let '(s', tp) := handle s e v in (fst (sleep_until s' tp), [ITopRun e], [EAgain (e_id e)])
          end
        else let '(s', tp) := handle s e v in (emplace s' e tp, [], [ESubmit (e_id e) tp])
    | IGuardEnd true => (s, [IDrain], [])
    | IGuardEnd false => (s, [], [])
    end.

  Definition config := (state * list item)%type.
  Inductive sstep : config -> list tev -> config -> Prop :=
  | SRun : forall s it rest s' its ls, tstep s it = (s', its, ls) ->
      sstep (s, it :: rest) (map (pair (s_clock s)) ls) (s', its ++ rest)
  | STick : forall s stk dt, 0 <= dt -> sstep (s, stk) [] (set_clock s (s_clock s + dt), stk)
  | SEnv : forall s stk h,
      sstep (s, stk) [(s_clock s, EEnv h)] (State (s_clock s) (s_last s) (s_queue s) (h :: s_dead s) (s_next s), stk).

  Inductive sexec : config -> list tev -> config -> Prop :=
  | SNil : forall c, sexec c [] c
  | SSnoc : forall c tr c1 ls c2, sexec c tr c1 -> sstep c1 ls c2 -> sexec c (tr ++ ls) c2.

  (** A thread starts a program at time t0. *)
  Definition s_init (t0 : Z) (prog : list act) : config := (State t0 t0 None [] 0, map IAct prog).
End Model.

(** Executing a concrete schedule. *)
Inductive cmd := CRun | CTick (dt : Z) | CEnv (h : nat).
Definition srun1 kind beh onerr (x : list tev * config) (c : cmd) : list tev * config :=
  let '(tr, (s, stk)) := x in
  match c with
  | CRun => match stk with
            | it :: rest => let '(s', its, ls) := tstep kind beh onerr s it in (tr ++ map (pair (s_clock s)) ls, (s', its ++ rest))
            | [] => x
            end
  | CTick dt => (tr, (set_clock s (s_clock s + Z.max 0 dt), stk))
  | CEnv h => (tr ++ [(s_clock s, EEnv h)], (State (s_clock s) (s_last s) (s_queue s) (h :: s_dead s) (s_next s), stk))
  end.
Definition srun kind beh onerr (cs : list cmd) (c : config) : list tev * config :=
  fold_left (srun1 kind beh onerr) cs ([], c).
