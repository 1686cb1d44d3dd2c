(** asio strand scheduler.  /repo/src/extensions/rppasio/rppasio/schedulers/strand.hpp:31-189.
    One worker (one asio strand), any number of threads that schedule, dispose and call
    io_context::run.  Environment, not part of the code: handlers bound to a strand do not
    overlap and run in the order in which they became ready; a timer becomes ready only
    when its expiry has passed, and not before one that expires earlier (equal ones in any
    order); io_context lives on and no timer is cancelled, so ec is never set (68); the
    threads that call run are not themselves inside a current_thread task (83). *)
From Coq Require Import ZArith NArith.
From Verif Require Import Base QueueSpec SchedSpec LoopSpec LoopBase.
Open Scope Z_scope.

Inductive sact :=
| AFor (d : Z) (code h : nat)    (* worker.schedule(d, ...), 156-163 *)
| ATo (tp : Z) (code h : nat)    (* worker.schedule(tp, ...), 165-169 *)
| ACur (d : Z) (code h : nat)    (* current_thread worker.schedule(d, ...) inside a handler *)
| ADisp (h : nat).               (* the handler (observer) gets disposed *)

(** What is given to asio: a task of the worker or one taken over from the thread-local
    queue (122-133). *)
Record entry := Entry { e_t : task; e_cur : bool }.

(** Argument of the timer (66): duration or time point. *)
Inductive expiry := Within (d : Z) | At (tp : Z).

(** Program points of the handler that is being run. *)
Inductive pitem :=
| PAct (a : sact)
| PRet (e : entry) (r : sres)          (* 55, 72, 125: fn returns or throws *)
| PTimer (e : entry) (x : expiry)      (* 60-75: defer_with_time *)
| PDrain.                              (* 89-93, 114-136: guard's destructor *)

Record sstate := SState {
  s_now : Z;
  s_ready : list entry;      (* m_strand: handlers ready to run *)
  s_timers : list entry;     (* pending timers; expiry in t_tp *)
  s_pc : list pitem;         (* the running handler; [] when none *)
  s_local : list task;       (* m_queue of the guard, 139 *)
  s_dead : list nat;
  s_next : nat }.

Inductive move :=
| MTick (d : N)
| MUser (a : sact)      (* some thread outside the strand *)
| MFire (i : nat)       (* the i-th timer becomes ready *)
| MRun                  (* a thread in io_context::run takes the next handler of the strand *)
| MStep.                (* the running handler goes on *)

Fixpoint del {A} (i : nat) (l : list A) : list A :=
  match l, i with [], _ => [] | _ :: r, O => r | x :: r, S i => x :: del i r end.

Section Model.
  Variable kind : nat -> skind.
  Variable beh : nat -> nat -> list sact * sres.
  Variable onerr : nat -> list sact.

  (** 44-50: defer; called in defer_for with a zero duration. *)
  Definition s_post (s : sstate) (e : entry) : sstate * list ltev :=
    if dead (s_dead s) (e_t e) then (s, [(s_now s, LDrop (t_id (e_t e)))])
    else (SState (s_now s) (s_ready s ++ [e]) (s_timers s) (s_pc s) (s_local s) (s_dead s) (s_next s), []).
  (** 60-67: defer_with_time. *)
  Definition s_timer (s : sstate) (e : entry) (x : expiry) : sstate * list ltev :=
    if dead (s_dead s) (e_t e) then (s, [(s_now s, LDrop (t_id (e_t e)))])
    else
      let tp := match x with Within d => s_now s + d | At tp => tp end in
      (SState (s_now s) (s_ready s) (s_timers s ++ [Entry (at_tp (e_t e) tp) (e_cur e)]) (s_pc s) (s_local s) (s_dead s) (s_next s),
       [(s_now s, LAgain (t_id (e_t e)) tp)]).

  Definition s_fresh (s : sstate) : sstate :=
    SState (s_now s) (s_ready s) (s_timers s) (s_pc s) (s_local s) (s_dead s) (S (s_next s)).
  Definition s_with (s : sstate) (pc : list pitem) : sstate :=
    SState (s_now s) (s_ready s) (s_timers s) pc (s_local s) (s_dead s) (s_next s).
  Definition s_queue (s : sstate) (q : list task) : sstate :=
    SState (s_now s) (s_ready s) (s_timers s) (s_pc s) q (s_dead s) (s_next s).

  (** Callables may schedule and dispose; inside: on a thread that runs a handler of the strand. *)
  Definition s_act (inside : bool) (s : sstate) (a : sact) : sstate * list ltev :=
    let now := s_now s in
    let new code h tp := Task (s_next s) h (kind code) code 0 tp tp in
    match a with
    | AFor d code h =>
        let '(s', ls) := if d =? 0 then s_post (s_fresh s) (Entry (new code h (now + d)) false)
                         else s_timer (s_fresh s) (Entry (new code h (now + d)) false) (Within d) in
        (s', (now, LCall VWorker (s_next s) h (kind code) (now + d)) :: ls)
    | ATo tp code h =>
        let '(s', ls) := s_timer (s_fresh s) (Entry (new code h tp) false) (At tp) in
        (s', (now, LCall VWorker (s_next s) h (kind code) tp) :: ls)
    | ACur d code h =>
        (* current_thread.hpp:150-151, 166; outside, current_thread runs the task itself: not this scheduler *)
        if inside then
          let t := new code h (now + d) in
          let e := (now, LCall VNested (s_next s) h (kind code) (now + d)) in
          if dead (s_dead s) t then (s_fresh s, [e; (now, LDrop (s_next s))])
          else (s_queue (s_fresh s) (t_ins t (s_local s)), [e])
        else (s, [])
    | ADisp h => (SState now (s_ready s) (s_timers s) (s_pc s) (s_local s) (h :: s_dead s) (s_next s), [(now, LDisp h)])
    end.

  (** 55-56, 72-73 for a task of the worker, whose exceptions leave the handler; 124-132
      with queue.hpp:129-169 for one of the thread-local queue. *)
  Definition s_ret (s : sstate) (e : entry) (r : sres) : list pitem * list ltev :=
    let now := s_now s in
    let t := e_t e in
    match r with
    | RStop => ([], [(now, LEnd (t_id t) RStop)])
    | RThrow => if e_cur e then (map PAct (onerr (t_h t)), [(now, LEnd (t_id t) RThrow); (now, LErr (t_id t) (t_h t))])
                else ([], [(now, LEnd (t_id t) RThrow)])
    | RAgain v =>
        let t' := ran now t v in
        let x := if e_cur e then At (new_tp now t v)
                 else match t_k t with KTo => At v | KNow | KThis => Within v end in
        ([PTimer (Entry t' (e_cur e)) x], [(now, LEnd (t_id t) (RAgain v))])
    end.

  Definition s_move (s : sstate) (m : move) : option (sstate * list ltev) :=
    let now := s_now s in
    match m with
    | MTick d => Some (SState (now + Z.of_N d) (s_ready s) (s_timers s) (s_pc s) (s_local s) (s_dead s) (s_next s), [])
    | MUser a => Some (s_act false s a)
    | MFire i =>
        match nth_error (s_timers s) i with
        | Some e =>
            if (t_tp (e_t e) <=? now) && forallb (fun x => t_tp (e_t e) <=? t_tp (e_t x)) (s_timers s)
            then Some (SState now (s_ready s ++ [e]) (del i (s_timers s)) (s_pc s) (s_local s) (s_dead s) (s_next s),
                       [(now, LPick (t_id (e_t e)))])
            else None
        | None => None
        end
    | MRun =>
        match s_pc s, s_ready s with
        | [], e :: r =>
            let s' := SState now r (s_timers s) [] (s_local s) (s_dead s) (s_next s) in
            if dead (s_dead s) (e_t e) then Some (s', [(now, LDrop (t_id (e_t e)))])
            else
              let '(acts, res) := beh (t_code (e_t e)) (t_runs (e_t e)) in
              Some (SState now r (s_timers s) (map PAct acts ++ [PRet e res; PDrain]) [] (s_dead s) (s_next s),
                    [(now, LStart (t_id (e_t e)))])
        | _, _ => None
        end
    | MStep =>
        match s_pc s with
        | [] => None
        | PAct a :: pc => Some (s_act true (s_with s pc) a)
        | PRet e r :: pc => let '(its, ls) := s_ret s e r in Some (s_with s (its ++ pc), ls)
        | PTimer e x :: pc => Some (s_timer (s_with s pc) e x)
        | PDrain :: pc =>
            match s_local s with
            | [] => Some (s_with s pc, [])
            | t :: q =>
                if dead (s_dead s) t then Some (s_queue s q, [(now, LDrop (t_id t))])
                else Some (s_queue (s_with s (PTimer (Entry t true) (At (t_tp t)) :: PDrain :: pc)) q, [])
            end
        end
    end.

  Definition s_init (t0 : Z) : sstate := SState t0 [] [] [] [] [] 0.

  (** Executions: any sequence of moves that are possible. *)
  Inductive s_exec (t0 : Z) : list ltev -> sstate -> Prop :=
  | s_exec_0 : s_exec t0 [] (s_init t0)
  | s_exec_S tr s m ls s' : s_exec t0 tr s -> s_move s m = Some (s', ls) -> s_exec t0 (tr ++ ls) s'.

  (** Executable version for examples. *)
  Fixpoint s_run (s : sstate) (ms : list move) : list ltev * sstate :=
    match ms with
    | [] => ([], s)
    | m :: ms => match s_move s m with
                 | Some (s', ls) => let '(tr, s2) := s_run s' ms in (ls ++ tr, s2)
                 | None => s_run s ms
                 end
    end.
End Model.
