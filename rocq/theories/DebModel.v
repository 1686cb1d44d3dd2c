(** debounce: /repo/src/rpp/rpp/operators/debounce.hpp.  Threads: the source's, the worker's (a
    worker runs its tasks on one thread), time, threads that dispose the downstream observer. *)
From Verif Require Import Base Machine Concur DelaySpec.

Section Deb.
  Context {V : Type} (D : machine V).
  Variable sync : bool.          (* worker.schedule runs the task itself (immediate; trampoline when idle) *)
  Variable prompt : bool.        (* time does not pass while a value is due or an event is being handled *)
  Variable period : nat.

  (** A task of the worker. *)
  Inductive tpc :=
  | PTask (t : nat)              (* waits for its time point *)
  | PRun                         (* 74: extract_value_or_time *)
  | PEmit (v : V)                (* 79: about to take the observer's mutex *)
  | PBack.                       (* 79: on_next returns, the mutex is released *)
  (** The source's thread. *)
  Inductive spc :=
  | SNext                        (* the source's next event *)
  | SSched (t : nat)             (* 56, m_mutex held *)
  | SSync (p : tpc)              (* 56 with [sync]: the task inside schedule(), m_mutex held *)
  | SUnlock                      (* 57-58 *)
  | STerm (e : ev V)             (* 135 or 140: about to take the observer's mutex *)
  | SExtract                     (* 141 *)
  | SVal (v : V)                 (* 142 *)
  | SValBack
  | SEvt (e : ev V)              (* 135 or 143 *)
  | SEvtBack.
  Record bst := BS {
    b_src : list (ev V);         (* what the source is still to emit *)
    b_fin : bool;                (* the operator's observer has received a terminal event: observer.hpp:120-144 *)
    b_val : option V;            (* m_value_to_be_emitted: 107 *)
    b_time : option nat;         (* m_time_when_value_should_be_emitted: 106 *)
    b_mtx : bool;                (* m_mutex held across steps: 50-57 *)
    b_obs : bool;                (* the mutex of m_observer: 101, utils.hpp:259-311 *)
    b_pend : list nat;           (* tasks of the worker *)
    b_now : nat;
    b_s : spc;
    b_w : option tpc;            (* what the worker is doing *)
    b_d : mst D
  }.
  Inductive bitem := TSrc | TWork | TTick | TKill.

  Definition set_s (s : bst) (p : spc) : bst := BS (b_src s) (b_fin s) (b_val s) (b_time s) (b_mtx s) (b_obs s) (b_pend s) (b_now s) p (b_w s) (b_d s).
  Definition set_w (s : bst) (p : option tpc) : bst := BS (b_src s) (b_fin s) (b_val s) (b_time s) (b_mtx s) (b_obs s) (b_pend s) (b_now s) (b_s s) p (b_d s).
  Definition set_val (s : bst) (v : option V) (t : option nat) : bst := BS (b_src s) (b_fin s) v t (b_mtx s) (b_obs s) (b_pend s) (b_now s) (b_s s) (b_w s) (b_d s).
  Definition set_obs (s : bst) (b : bool) : bst := BS (b_src s) (b_fin s) (b_val s) (b_time s) (b_mtx s) b (b_pend s) (b_now s) (b_s s) (b_w s) (b_d s).
  Definition set_mtx (s : bst) (b : bool) : bst := BS (b_src s) (b_fin s) (b_val s) (b_time s) b (b_obs s) (b_pend s) (b_now s) (b_s s) (b_w s) (b_d s).
  Definition set_d (s : bst) (d : mst D) : bst := BS (b_src s) (b_fin s) (b_val s) (b_time s) (b_mtx s) (b_obs s) (b_pend s) (b_now s) (b_s s) (b_w s) d.

  (** A callback of the downstream observer begins (observer.hpp:84-144). *)
  Definition call (s : bst) (e : ev V) : bst * list (dlab V) :=
    if mdisp D (b_d s) then (s, []) else (set_d s (mstep D (b_d s) e), [DBeg e (b_now s)]).

  (** One step of a task: 74-81, 86-99. *)
  Definition task (s : bst) (p : tpc) : option (bst * option tpc * list (dlab V)) :=
    match p with
    | PTask t =>                 (* the handler's is_disposed: 28 *)
        if mdisp D (b_d s) then Some (s, None, []) else if t <=? b_now s then Some (s, Some PRun, []) else None
    | PRun =>
        if b_mtx s then None
        else match b_time s, b_val s with
             | Some t, Some v => if t <=? b_now s then Some (set_val s None None, Some (PEmit v), []) else Some (s, Some (PTask t), [])
             | _, _ => Some (s, None, [])
             end
    | PEmit v =>
        if b_obs s then None
        else if mdisp D (b_d s) then Some (s, None, [])
        else let (s', ls) := call s (Next v) in Some (set_obs s' true, Some PBack, ls)
    | PBack => Some (set_obs s false, None, [DEnd])
    end.

  Definition src_step (s : bst) : option (bst * list bitem * list (dlab V)) :=
    match b_s s with
    | SNext =>
        match b_src s with
        | [] => Some (s, [], [])
        | e :: r =>
            let s := BS r (b_fin s) (b_val s) (b_time s) (b_mtx s) (b_obs s) (b_pend s) (b_now s) SNext (b_w s) (b_d s) in
            if b_fin s || mdisp D (b_d s) then Some (s, [TSrc], [])    (* is_disposed 122-125 and the observer's own flag *)
            else match e with
                 | Next v =>     (* 48-58 *)
                     if b_mtx s then None
                     else let tp := b_now s + period in
                          let s' := set_val s (Some v) (Some tp) in
                          Some (match b_time s with None => set_s (set_mtx s' true) (SSched tp) | Some _ => s' end, [TSrc], [DIn e (b_now s)])
                 | _ => Some (BS r true (b_val s) (b_time s) (b_mtx s) (b_obs s) (b_pend s) (b_now s) (STerm e) (b_w s) (b_d s), [TSrc], [])
                 end
        end
    | SSched t =>
        if sync then Some (set_s s (SSync (PTask t)), [TSrc], [])
        else Some (BS (b_src s) (b_fin s) (b_val s) (b_time s) (b_mtx s) (b_obs s) (b_pend s ++ [t]) (b_now s) SUnlock (b_w s) (b_d s), [TSrc], [])
    | SSync p =>
        match task s p with
        | Some (s', Some p', ls) => Some (set_s s' (SSync p'), [TSrc], ls)
        | Some (s', None, ls) => Some (set_s s' SUnlock, [TSrc], ls)
        | None => None
        end
    | SUnlock => Some (set_s (set_mtx s false) SNext, [TSrc], [])
    | STerm e =>
        if b_obs s then None
        else if mdisp D (b_d s) then Some (set_s s SNext, [TSrc], [])
        else match e with
             | Done => Some (set_s (set_obs s true) SExtract, [TSrc], [])
             | _ => Some (set_s (set_obs s true) (SEvt e), [TSrc], [DIn e (b_now s)])    (* accepted under the mutex *)
             end
    | SExtract =>                (* 60-64; the completion is accepted here *)
        if b_mtx s then None
        else if mdisp D (b_d s) then Some (set_s (set_obs s false) SNext, [TSrc], [])
        else Some (set_s (set_val s None (b_time s)) (match b_val s with Some v => SVal v | None => SEvt Done end), [TSrc], [DIn Done (b_now s)])
    | SVal v => if mdisp D (b_d s) then Some (set_s s (SEvt Done), [TSrc], [])
                else let (s', ls) := call s (Next v) in Some (set_s s' SValBack, [TSrc], ls)
    | SValBack => Some (set_s s (SEvt Done), [TSrc], [DEnd])
    | SEvt e => if mdisp D (b_d s) then Some (set_s (set_obs s false) SNext, [TSrc], [])
                else let (s', ls) := call s e in Some (set_s s' SEvtBack, [TSrc], ls)
    | SEvtBack => Some (set_s (set_obs s false) SNext, [TSrc], [DEnd])
    end.

  Definition work_step (s : bst) : option (bst * list bitem * list (dlab V)) :=
    match b_w s with
    | None => match b_pend s with
              | t :: r => Some (BS (b_src s) (b_fin s) (b_val s) (b_time s) (b_mtx s) (b_obs s) r (b_now s) (b_s s) (Some (PTask t)) (b_d s), [TWork], [])
              | [] => None
              end
    | Some p => match task s p with
                | Some (s', p', ls) => Some (set_w s' p', [TWork], ls)
                | None => None
                end
    end.

  (** The environment's clock; with [prompt] the timer is never late and the source's thread is
      never held up. *)
  Definition held (s : bst) : bool :=
    prompt && (negb (mdisp D (b_d s)) &&
      (match b_time s, b_val s with Some t, Some _ => t <=? b_now s | _, _ => false end ||
       match b_w s with Some (PEmit _) => true | _ => false end ||
       match b_s s with SNext => false | _ => true end)).

  Definition bstep (s : bst) (i : bitem) : option (bst * list bitem * list (dlab V)) :=
    match i with
    | TSrc => src_step s
    | TWork => work_step s
    | TTick => if held s then None
               else Some (BS (b_src s) (b_fin s) (b_val s) (b_time s) (b_mtx s) (b_obs s) (b_pend s) (Datatypes.S (b_now s)) (b_s s) (b_w s) (b_d s), [], [])
    | TKill => Some (set_d s (mkill D (b_d s)), [], [DKill])
    end.
  Definition b_init (src : list (ev V)) (d : mst D) : bst := BS src false None None false false [] 0 SNext None d.
  Definition b_threads (ticks kills : nat) : list (list bitem) := [TSrc] :: [TWork] :: repeat [TTick] ticks ++ repeat [TKill] kills.
End Deb.
Arguments BS {V D}.
Arguments b_src {V D} _.
Arguments b_fin {V D} _.
Arguments b_val {V D} _.
Arguments b_time {V D} _.
Arguments b_mtx {V D} _.
Arguments b_obs {V D} _.
Arguments b_pend {V D} _.
Arguments b_now {V D} _.
Arguments b_s {V D} _.
Arguments b_w {V D} _.
Arguments b_d {V D} _.
