(** C14, C17 - C20, C22, C23 for the schedulers with a queue served by a loop
    (new_thread, run_loop, test_scheduler): timed traces and what is read off them. *)
From Coq Require Export ZArith.
From Verif Require Import Base QueueSpec SchedSpec.
Open Scope Z_scope.

(** Submitted through the scheduler's own worker, or with current_thread from inside a
    task that the loop is running. *)
Inductive via := VWorker | VNested.

Inductive lev :=
| LCall (v : via) (id h : nat) (k : skind) (tp : Z)   (* new task with handler h put into the queue, due at tp *)
| LAgain (id : nat) (tp : Z)                          (* put into the queue again *)
| LDirect (id : nat)                                  (* repeated without going through the queue *)
| LPick (id : nat)                                    (* taken from the queue to be run *)
| LDrop (id : nat)                                    (* given up: handler disposed *)
| LStart (id : nat)
| LEnd (id : nat) (r : sres)
| LErr (id h : nat)                                   (* handler.on_error *)
| LDisp (h : nat)                                     (* a handler becomes disposed *)
| LFresh (id : nat)                                   (* the worker's schedule call for id returns *)
| LStop                                               (* the last copy of a worker goes away *)
| LExit                                               (* the loop ends *)
| LAdv (d : Z)                                        (* time_advance(d) *)
| LClear                                              (* run_loop disposed: queue emptied *)
| LFlag                                               (* run_loop: disposed flag set *)
| LEnter (n : nat)                                    (* dispatch call number n begins *)
| LLeave (n : nat)                                    (* and returns *)
| LBy (n : nat).                                      (* the task just picked is run by dispatch call n *)

(** Event with the clock reading. *)
Definition ltev := (Z * lev)%type.

(** Handler, kind and due time of the next run of a task, from what was asked for. *)
Definition asked1 (id : nat) (cur : option (nat * skind * Z)) (e : ltev) : option (nat * skind * Z) :=
  match snd e with
  | LCall _ i h k tp => if Nat.eqb i id then Some (h, k, tp) else cur
  | LEnd i (RAgain v) =>
      if Nat.eqb i id then
        match cur with
        | Some (h, KNow, _) => Some (h, KNow, fst e + v)
        | Some (h, KThis, x) => Some (h, KThis, x + v)
        | Some (h, KTo, _) => Some (h, KTo, v)
        | None => None
        end
      else cur
  | _ => cur
  end.
Definition asked (tr : list ltev) (id : nat) : option (nat * skind * Z) := fold_left (asked1 id) tr None.

Definition happened (tr : list ltev) (e : lev) : Prop := exists t, In (t, e) tr.
Definition called (tr : list ltev) (id : nat) : Prop := exists v h k tp, happened tr (LCall v id h k tp).
Definition over (tr : list ltev) (id : nat) : Prop :=
  happened tr (LDrop id) \/ happened tr (LEnd id RStop) \/ happened tr (LEnd id RThrow).
Definition gone (tr : list ltev) (h : nat) : Prop := happened tr (LDisp h).

(** Waiting tasks in submission order. *)
Definition waiting1 (w : waiting) (e : ltev) : waiting :=
  match snd e with
  | LCall _ id _ _ tp | LAgain id tp => w ++ [(tp, id)]
  | LPick id | LDrop id => filter (fun x => negb (Nat.eqb (snd x) id)) w
  | LClear => []
  | _ => w
  end.
Definition waits (tr : list ltev) : waiting := fold_left waiting1 tr [].

(** Tasks started and not yet returned. *)
Definition runs1 (l : list nat) (e : ltev) : list nat :=
  match snd e with
  | LStart id => id :: l
  | LEnd id _ => filter (fun x => negb (Nat.eqb x id)) l
  | _ => l
  end.
Definition in_run (tr : list ltev) : list nat := fold_left runs1 tr [].

(** First due time and the intervals asked for. *)
Definition lfirst1 (id : nat) (cur : option Z) (e : ltev) : option Z :=
  match cur, snd e with
  | None, LCall _ i _ _ tp => if Nat.eqb i id then Some tp else None
  | _, _ => cur
  end.
Definition lfirst (tr : list ltev) (id : nat) : option Z := fold_left (lfirst1 id) tr None.
Definition intervals (tr : list ltev) (id : nat) : list Z :=
  flat_map (fun e => match snd e with LEnd i (RAgain v) => if Nat.eqb i id then [v] else [] | _ => [] end) tr.
(** Total virtual time advanced. *)
Definition advanced (tr : list ltev) : Z :=
  zsum (flat_map (fun e => match snd e with LAdv d => [d] | _ => [] end) tr).
