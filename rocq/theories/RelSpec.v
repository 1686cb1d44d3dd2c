(** What "the sources are released" means for an operator with several sources, in terms
    of what can be seen from outside: which disposables were handed over and disposed. *)
From Verif Require Import Base.

Inductive rlab :=
| LUp (i d : nat)    (* source i hands over disposable d: observer.set_upstream(d) *)
| LTerm (i : nat)    (* source i ends: on_error / on_completed, or its on_next failed *)
| LNew (j : nat)     (* the outer source sends the j-th observable *)
| LOver              (* the result ended: on_error, on_completed or unsubscribed *)
| LRel (d : nat).    (* d.dispose() *)

(** Everything handed over by source i has been disposed. *)
Definition released (tr : list rlab) (i : nat) : Prop :=
  forall d, In (LUp i d) tr -> In (LRel d) tr.

(** Nothing is disposed unless somebody who handed it over is finished ([fin i]). *)
Definition not_early (tr : list rlab) (fin : nat -> Prop) : Prop :=
  forall d, In (LRel d) tr -> exists i, In (LUp i d) tr /\ (In LOver tr \/ fin i).

(** Source i is finished; with switching, also when a later observable has arrived. *)
Definition finished (tr : list rlab) (i : nat) : Prop := In (LTerm i) tr.
Definition finished_or_replaced (tr : list rlab) (i : nat) : Prop :=
  In (LTerm i) tr \/ (0 < i /\ exists j, i < j /\ In (LNew j) tr).
