(** C14 - C20: what users rely on from the schedulers, stated on timed traces. *)
From Coq Require Export ZArith.
From Verif Require Import Base QueueSpec.
Open Scope Z_scope.

(** How a callable asks to be repeated (schedulers/fwd.hpp:26-77). *)
Inductive skind := KNow | KThis | KTo.
(** What one call of a callable results in. *)
Inductive sres := RStop | RThrow | RAgain (v : Z).

(** Which scheduler runs the task. *)
Inductive sched := CT | IMM.

Inductive sev :=
| ECall (w : sched) (id h : nat) (k : skind) (d : Z)      (* schedule(delay d) of a new task with handler h *)
| ECallTo (w : sched) (id h : nat) (k : skind) (tp : Z)   (* schedule(time point) *)
| ESubmit (id : nat) (tp : Z)                             (* put into the queue *)
| EPick (id : nat)                                        (* taken from the queue to be run *)
| EDrop (id : nat)                                        (* given up: handler disposed *)
| EStart (w : sched) (id : nat)
| EEnd (w : sched) (id : nat) (r : sres)
| EErr (id h : nat)                                       (* handler.on_error *)
| EAgain (id : nat)                                       (* repeated without going through the queue *)
| EDisp (h : nat)                                         (* handler disposed by this thread *)
| EEnv (h : nat).                                         (* handler disposed by another thread *)

(** Event with the clock reading. *)
Definition tev := (Z * sev)%type.

(** When the next run of a task is due, from what was asked for. *)
Definition due1 (id : nat) (cur : option (skind * Z)) (e : tev) : option (skind * Z) :=
  match snd e with
  | ECall _ i _ k d => if Nat.eqb i id then Some (k, fst e + d) else cur
  | ECallTo _ i _ k tp => if Nat.eqb i id then Some (k, tp) else cur
  | EEnd _ i (RAgain v) =>
      if Nat.eqb i id then
        match cur with
        | Some (KNow, _) => Some (KNow, fst e + v)
        | Some (KThis, x) => Some (KThis, x + v)
        | Some (KTo, _) => Some (KTo, v)
        | None => None
        end
      else cur
  | _ => cur
  end.
Definition due (tr : list tev) (id : nat) : option (skind * Z) := fold_left (due1 id) tr None.

(** A task is over. *)
Definition finished_in (tr : list tev) (id : nat) : Prop :=
  exists t, In (t, EDrop id) tr \/ exists w, In (t, EEnd w id RStop) tr \/ In (t, EEnd w id RThrow) tr.
Definition called_in (tr : list tev) (w : sched) (id : nat) : Prop :=
  exists t h k x, In (t, ECall w id h k x) tr \/ In (t, ECallTo w id h k x) tr.
Definition handler_of (tr : list tev) (id h : nat) : Prop :=
  exists t w k x, In (t, ECall w id h k x) tr \/ In (t, ECallTo w id h k x) tr.
Definition rerun_in (tr : list tev) (id : nat) : Prop := exists t, In (t, EAgain id) tr.
Definition disposed_before (tr : list tev) (h : nat) : Prop := exists t, In (t, EDisp h) tr \/ In (t, EEnv h) tr.

(** Waiting tasks in submission order. *)
Definition pending1 (w : waiting) (e : tev) : waiting :=
  match snd e with
  | ESubmit id tp => w ++ [(tp, id)]
  | EPick id | EDrop id => filter (fun x => negb (Nat.eqb (snd x) id)) w
  | _ => w
  end.
Definition pending (tr : list tev) : waiting := fold_left pending1 tr [].

(** The task picked last and not yet returned. *)
Definition picked1 (p : option nat) (e : tev) : option nat :=
  match snd e with EPick id => Some id | EEnd CT _ _ => None | _ => p end.
Definition picked (tr : list tev) : option nat := fold_left picked1 tr None.

(** The current_thread task being executed. *)
Definition running1 (p : option nat) (e : tev) : option nat :=
  match snd e with EStart CT id => Some id | EEnd CT _ _ => None | _ => p end.
Definition running (tr : list tev) : option nat := fold_left running1 tr None.

(** First due time of a task, and the total of the repetition intervals it asked for. *)
Definition first1 (id : nat) (cur : option Z) (e : tev) : option Z :=
  match cur with
  | Some _ => cur
  | None =>
      match snd e with
      | ECall _ i _ _ d => if Nat.eqb i id then Some (fst e + d) else None
      | ECallTo _ i _ _ tp => if Nat.eqb i id then Some tp else None
      | _ => None
      end
  end.
Definition first_due (tr : list tev) (id : nat) : option Z := fold_left (first1 id) tr None.
Definition repeats (tr : list tev) (id : nat) : list Z :=
  flat_map (fun e => match snd e with EEnd _ i (RAgain v) => if Nat.eqb i id then [v] else [] | _ => [] end) tr.
Definition kind_is (tr : list tev) (id : nat) (k : skind) : Prop :=
  exists t w h x, In (t, ECall w id h k x) tr \/ In (t, ECallTo w id h k x) tr.
Definition zsum (l : list Z) : Z := fold_right Z.add 0 l.
