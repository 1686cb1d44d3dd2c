(** delay and observe_on: /repo/src/rpp/rpp/operators/delay.hpp, observe_on.hpp:41-45
    (delay_t with ClearOnError).  Threads: the source's, worker threads, threads that let time
    pass, threads that dispose the downstream observer. *)
From Verif Require Import Base Machine Concur DelaySpec.

Section Delay.
  Context {V : Type} (D : machine V).
  Variable clear : bool.         (* ClearOnError *)
  Variable sync : bool.          (* worker.schedule runs the task itself (immediate, trampoline) *)
  Variable delay : nat.

  Record dst := DS {
    y_src : list (ev V);         (* what the source is still to emit *)
    y_fin : bool;                (* the operator's observer has received a terminal event: observer.hpp:120-144 *)
    y_lock : bool;               (* state->mutex held across steps (only 115-120) *)
    y_queue : list (ev V * nat); (* state->queue with time_point *)
    y_active : bool;             (* state->is_active *)
    y_pending : list nat;        (* tasks of the worker *)
    y_now : nat;
    y_d : mst D
  }.
  Inductive ditem :=
  | YSrc                         (* the source's next event *)
  | YSched (t : nat)             (* 105-108: worker.schedule *)
  | YTask (t : nat)              (* a task waits for its time point *)
  | YWork                        (* a worker thread looks for a task *)
  | YDrain                       (* 137-152: one round of drain_queue *)
  | YCall (e : ev V) (own : bool)  (* 154-159 ([own]: by the drain) or 119 *)
  | YBack (own : bool)           (* the callback returns *)
  | YUnlock                      (* 120: lock_guard *)
  | YClock (n : nat)
  | YKill.

  Definition task_to (s : dst) (q : list (ev V * nat)) (t : nat) : dst * list ditem :=
    if sync then (DS (y_src s) (y_fin s) (y_lock s) q (y_active s) (y_pending s) (y_now s) (y_d s), [YTask t])
    else (DS (y_src s) (y_fin s) (y_lock s) q (y_active s) (y_pending s ++ [t]) (y_now s) (y_d s), []).

  Definition ystep (s : dst) (i : ditem) : option (dst * list ditem * list (dlab V)) :=
    match i with
    | YSrc =>
        match y_src s with
        | [] => Some (s, [], [])
        | e :: r =>
            (* is_disposed 78-81 and the observer's own flag *)
            if y_fin s || mdisp D (y_d s)
            then Some (DS r (y_fin s) (y_lock s) (y_queue s) (y_active s) (y_pending s) (y_now s) (y_d s), [YSrc], [])
            else if y_lock s then None
            else match e, clear with
                 | Err x, true =>        (* 116-121 *)
                     Some (DS r true true [] (y_active s) (y_pending s) (y_now s) (y_d s), [YCall e false; YSrc], [DIn e (y_now s)])
                 | _, _ =>               (* 124-131 *)
                     let tp := y_now s + delay in
                     Some (DS r (y_fin s || is_term e) false (y_queue s ++ [(e, tp)]) true (y_pending s) (y_now s) (y_d s),
                           (if y_active s then [] else [YSched tp]) ++ [YSrc], [DIn e (y_now s)])
                 end
        end
    | YSched t => let (s', is) := task_to s (y_queue s) t in Some (s', is, [])
    | YTask t =>                         (* the handler's is_disposed: 63 *)
        if mdisp D (y_d s) then Some (s, [], [])
        else if t <=? y_now s then Some (s, [YDrain], []) else None
    | YWork =>
        match y_pending s with
        | t :: r => Some (DS (y_src s) (y_fin s) (y_lock s) (y_queue s) (y_active s) r (y_now s) (y_d s), [YTask t; YWork], [])
        | [] => None
        end
    | YDrain =>
        if y_lock s then None
        else match y_queue s with
             | [] => Some (DS (y_src s) (y_fin s) false [] false (y_pending s) (y_now s) (y_d s), [], [])
             | (e, t) :: q =>
                 if t <=? y_now s
                 then Some (DS (y_src s) (y_fin s) false q (y_active s) (y_pending s) (y_now s) (y_d s), [YCall e true], [])
                 else let (s', is) := task_to s (y_queue s) t in Some (s', is, [])
             end
    | YCall e own =>                     (* observer.hpp:84-144 of the downstream observer *)
        if mdisp D (y_d s) then Some (s, if own then [YDrain] else [YUnlock], [])
        else Some (DS (y_src s) (y_fin s) (y_lock s) (y_queue s) (y_active s) (y_pending s) (y_now s) (mstep D (y_d s) e), [YBack own], [DBeg e (y_now s)])
    | YBack own => Some (s, if own then [YDrain] else [YUnlock], [DEnd])
    | YUnlock => Some (DS (y_src s) (y_fin s) false (y_queue s) (y_active s) (y_pending s) (y_now s) (y_d s), [], [])
    | YClock n => Some (DS (y_src s) (y_fin s) (y_lock s) (y_queue s) (y_active s) (y_pending s) (y_now s + n) (y_d s), [], [])
    | YKill => Some (DS (y_src s) (y_fin s) (y_lock s) (y_queue s) (y_active s) (y_pending s) (y_now s) (mkill D (y_d s)), [], [DKill])
    end.
  Definition d_init (src : list (ev V)) (d : mst D) : dst := DS src false false [] false [] 0 d.
  Definition d_threads (workers : nat) (clock : list nat) (kills : nat) : list (list ditem) :=
    [YSrc] :: repeat [YWork] workers ++ map (fun n => [YClock n]) clock ++ repeat [YKill] kills.
End Delay.
Arguments DS {V D}.
Arguments y_src {V D} _.
Arguments y_fin {V D} _.
Arguments y_lock {V D} _.
Arguments y_queue {V D} _.
Arguments y_active {V D} _.
Arguments y_pending {V D} _.
Arguments y_now {V D} _.
Arguments y_d {V D} _.
