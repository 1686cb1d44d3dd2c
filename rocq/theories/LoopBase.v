(** What new_thread, run_loop and test_scheduler have in common: schedulables and the
    queue.  /repo/src/rpp/rpp/schedulers/details/queue.hpp. *)
From Coq Require Import ZArith.
From Verif Require Import Base QueueSpec SchedSpec LoopSpec.
Open Scope Z_scope.

(** specific_schedulable, queue.hpp:112-113, 118-169: identity, handler, return type of the
    callable, which callable, finished runs, time point.  t_due is a history variable, never
    read by the models: when the next run is due according to what the callable returned. *)
Record task := Task { t_id : nat; t_h : nat; t_k : skind; t_code : nat; t_runs : nat; t_due : Z; t_tp : Z }.

(** queue.hpp:82, 233: set_timepoint. *)
Definition at_tp (t : task) (x : Z) := Task (t_id t) (t_h t) (t_k t) (t_code t) (t_runs t) (t_due t) x.
(** The callable returned v at time c (history variable and counter only). *)
Definition next_due (c : Z) (t : task) (v : Z) : Z :=
  match t_k t with KNow => c + v | KThis => t_due t + v | KTo => v end.
Definition ran (c : Z) (t : task) (v : Z) :=
  Task (t_id t) (t_h t) (t_k t) (t_code t) (S (t_runs t)) (next_due c t v) (t_tp t).
(** get_advanced_call_handler, queue.hpp:96-109, with NowStrategy::now() = c. *)
Definition new_tp (c : Z) (t : task) (v : Z) : Z :=
  match t_k t with KNow => c + v | KThis => t_tp t + v | KTo => v end.

(** queue.hpp:250-278 as established by C13: sorted, new ones after equal ones. *)
Fixpoint t_ins (e : task) (q : list task) : list task :=
  match q with
  | [] => [e]
  | x :: r => if t_tp e <? t_tp x then e :: x :: r else x :: t_ins e r
  end.
Definition dead (d : list nat) (t : task) : bool := existsb (Nat.eqb (t_h t)) d.
