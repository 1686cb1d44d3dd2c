(** Calls of the observer of window i begin and end. *)
From Verif Require Import Base.

Inductive wlab := WBegin (i : nat) | WEnd (i : nat).
(** Number of calls in progress for window i. *)
Definition running (i : nat) (tr : list wlab) : nat :=
  length (filter (fun l => match l with WBegin j => j =? i | WEnd _ => false end) tr) -
  length (filter (fun l => match l with WEnd j => j =? i | WBegin _ => false end) tr).
(** They never overlap. *)
Definition no_overlap (tr : list wlab) : Prop := forall i, running i tr <= 1.
