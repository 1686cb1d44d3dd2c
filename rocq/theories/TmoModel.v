(** timeout: /repo/src/rpp/rpp/operators/timeout.hpp.  Threads: the source's, the timer's, the
    fallback's (a fallback that emits inside subscribe() is the special case in which this thread
    runs before the timer's goes on), time, threads that dispose the downstream observer. *)
From Verif Require Import Base Machine Concur TmoSpec.

Section Tmo.
  Context {V : Type} (D : machine V).
  Variable single : bool.   (* the timer's task never runs while an event of the source is being handled (one thread, e.g. a run loop) *)
  Variable prompt : bool.   (* time does not pass while the timer is due or an event is being handled *)
  Variable period : nat.

  Inductive apc :=
  | ANext                   (* the source's next event: observer.hpp:84-144 checks is_disposed (76-79) *)
  | ALock (e : ev V)        (* 84, 91, 98: about to take the mutex *)
  | ABack (e : ev V).       (* 85, 93, 100: the callback returns; 86; the mutex is released *)
  Inductive ttpc :=
  | TWait (t : nat)         (* the task waits for its time point *)
  | TRun                    (* 138: about to take the mutex *)
  | TSub                    (* 145: the observer is moved into subscribe *)
  | TUnlock                 (* 147 *)
  | TOver.
  Record ust := US {
    u_src : list (ev V);    (* what the source is still to emit *)
    u_fb : list (ev V);     (* what the fallback is still to emit *)
    u_s : apc;
    u_t : ttpc;
    u_busy : bool;          (* a callback made by the fallback is running *)
    u_lock : bool;          (* the mutex of m_observer_with_timeout: 45, utils.hpp:259-311 *)
    u_time : nat;           (* timeout: 29 *)
    u_rel : bool;           (* disposable->dispose() by the timer: 144; also disposes the source's upstream (71-74) *)
    u_sw : bool;            (* the observer is moved away: 145 *)
    u_now : nat;
    u_moved : bool;         (* a moved-from observer was used: undefined behaviour, nothing more happens *)
    u_d : mst D
  }.
  Inductive uitem := USrc | UTimer | UFb | UTick | UKill.

  Definition set_us (s : ust) (src : list (ev V)) (p : apc) : ust := US src (u_fb s) p (u_t s) (u_busy s) (u_lock s) (u_time s) (u_rel s) (u_sw s) (u_now s) (u_moved s) (u_d s).
  Definition set_ut (s : ust) (p : ttpc) (lk : bool) : ust := US (u_src s) (u_fb s) (u_s s) p (u_busy s) lk (u_time s) (u_rel s) (u_sw s) (u_now s) (u_moved s) (u_d s).
  Definition set_lock (s : ust) (b : bool) : ust := US (u_src s) (u_fb s) (u_s s) (u_t s) (u_busy s) b (u_time s) (u_rel s) (u_sw s) (u_now s) (u_moved s) (u_d s).
  Definition set_ud (s : ust) (d : mst D) : ust := US (u_src s) (u_fb s) (u_s s) (u_t s) (u_busy s) (u_lock s) (u_time s) (u_rel s) (u_sw s) (u_now s) (u_moved s) d.

  (** disposable->is_disposed(): disposed at 144, or because it is the upstream of the
      downstream observer (131) *)
  Definition gone (s : ust) : bool := u_rel s || mdisp D (u_d s).

  Definition usrc (s : ust) : option (ust * list uitem * list (tlab V)) :=
    match u_s s with
    | ANext =>
        match u_src s with
        | [] => Some (s, [], [])
        | e :: r => if gone s then Some (set_us s r ANext, [USrc], []) else Some (set_us s r (ALock e), [USrc], [])
        end
    | ALock e =>
        if u_lock s then None
        else match e with
             | Next v =>        (* 84-86: no check *)
                 if u_sw s then Some (US (u_src s) (u_fb s) (u_s s) (u_t s) (u_busy s) true (u_time s) (u_rel s) (u_sw s) (u_now s) true (u_d s), [], [CMoved v])
                 else if mdisp D (u_d s)
                 then Some (US (u_src s) (u_fb s) ANext (u_t s) (u_busy s) false (u_now s + period) (u_rel s) (u_sw s) (u_now s) (u_moved s) (u_d s), [USrc], [])
                 else Some (set_lock (set_us (set_ud s (mstep D (u_d s) e)) (u_src s) (ABack e)) true, [USrc], [CSrc e (u_now s)])
             | _ =>             (* 91-94, 98-101 *)
                 if gone s then Some (set_us s (u_src s) ANext, [USrc], [])
                 else Some (set_lock (set_us (set_ud s (mstep D (u_d s) e)) (u_src s) (ABack e)) true, [USrc], [CSrc e (u_now s)])
             end
    | ABack e =>
        Some (US (u_src s) (u_fb s) ANext (u_t s) (u_busy s) false (if is_term e then u_time s else u_now s + period) (u_rel s) (u_sw s) (u_now s) (u_moved s) (u_d s),
              [USrc], [CEnd (u_now s)])
    end.

  Definition idle (p : apc) : bool := match p with ANext => true | _ => false end.
  Definition utimer (s : ust) : option (ust * list uitem * list (tlab V)) :=
    match u_t s with
    | TWait t =>                (* the handler's is_disposed: 56 *)
        if gone s then Some (set_ut s TOver (u_lock s), [], [])
        else if t <=? u_now s then Some (set_ut s TRun (u_lock s), [UTimer], []) else None
    | TRun =>                   (* 138-144 *)
        if u_lock s || (single && negb (idle (u_s s))) then None
        else if u_now s <? u_time s then Some (set_ut s (TWait (u_time s)) false, [UTimer], [])
        else if gone s then Some (set_ut s TOver false, [], [])
        else Some (US (u_src s) (u_fb s) (u_s s) TSub (u_busy s) true (u_time s) true (u_sw s) (u_now s) (u_moved s) (u_d s), [UTimer], [CRel (u_now s)])
    | TSub =>
        Some (US (u_src s) (u_fb s) (u_s s) TUnlock (u_busy s) (u_lock s) (u_time s) (u_rel s) true (u_now s) (u_moved s) (u_d s), [UTimer], [CSwitch (u_now s)])
    | TUnlock => Some (set_ut s TOver false, [], [])
    | TOver => Some (s, [], [])
    end.

  (** The fallback calls the observer it was given. *)
  Definition ufb (s : ust) : option (ust * list uitem * list (tlab V)) :=
    if u_busy s then Some (US (u_src s) (u_fb s) (u_s s) (u_t s) false (u_lock s) (u_time s) (u_rel s) (u_sw s) (u_now s) (u_moved s) (u_d s), [UFb], [CEnd (u_now s)])
    else if u_sw s
    then match u_fb s with
         | [] => Some (s, [], [])
         | e :: r =>
             if mdisp D (u_d s) then Some (US (u_src s) r (u_s s) (u_t s) false (u_lock s) (u_time s) (u_rel s) (u_sw s) (u_now s) (u_moved s) (u_d s), [UFb], [])
             else Some (US (u_src s) r (u_s s) (u_t s) true (u_lock s) (u_time s) (u_rel s) (u_sw s) (u_now s) (u_moved s) (mstep D (u_d s) e), [UFb], [CFb e (u_now s)])
         end
    else None.

  (** The environment's clock. *)
  Definition stopped (s : ust) : bool :=
    prompt && (negb (gone s) && ((u_time s <=? u_now s) || negb (idle (u_s s)))).

  Definition ustep (s : ust) (i : uitem) : option (ust * list uitem * list (tlab V)) :=
    if u_moved s then None
    else match i with
    | USrc => usrc s
    | UTimer => utimer s
    | UFb => ufb s
    | UTick => if stopped s then None
               else Some (US (u_src s) (u_fb s) (u_s s) (u_t s) (u_busy s) (u_lock s) (u_time s) (u_rel s) (u_sw s) (Datatypes.S (u_now s)) (u_moved s) (u_d s), [], [])
    | UKill => Some (set_ud s (mkill D (u_d s)), [], [CKill])
    end.
  (** lift: 127-149 *)
  Definition u_init (src fb : list (ev V)) (d : mst D) : ust := US src fb ANext (TWait period) false false period false false 0 false d.
  Definition u_threads (ticks kills : nat) : list (list uitem) := [USrc] :: [UTimer] :: [UFb] :: repeat [UTick] ticks ++ repeat [UKill] kills.
End Tmo.
Arguments US {V D}.
Arguments u_src {V D} _.
Arguments u_fb {V D} _.
Arguments u_s {V D} _.
Arguments u_t {V D} _.
Arguments u_busy {V D} _.
Arguments u_lock {V D} _.
Arguments u_time {V D} _.
Arguments u_rel {V D} _.
Arguments u_sw {V D} _.
Arguments u_now {V D} _.
Arguments u_moved {V D} _.
Arguments u_d {V D} _.
