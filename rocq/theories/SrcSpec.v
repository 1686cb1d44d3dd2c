(** C55: what a source delivers to one observer that may be disposed at any moment. *)
From Coq Require Import ZArith.
From Verif Require Import Base Machine.

(** [LKill]: somebody disposes the observer.  [LGet i]: element i of the container is read.
    [LTick t n]: interval's value n is delivered by a run due at t. *)
Inductive slab := LKill | LGet (i : nat) | LTick (t : Z) (n : nat).

(** The events of a container: its elements in order, then completion, or the exception thrown
    by reading an element. *)
Fixpoint elements {A} (l : list (res A)) : list (ev A) :=
  match l with [] => [Done] | Ok v :: r => Next v :: elements r | Throw e :: _ => [Err e] end.

(** [d] is an observer that started as [d0] and got the first n events, then possibly was
    disposed. *)
Definition got {A} (D : machine A) (d0 : mst D) (evs : list (ev A)) (killed : bool) (d : mst D) : Prop :=
  exists n, d = if killed then mkill D (mrun D d0 (firstn n evs)) else mrun D d0 (firstn n evs).

Definition is_get (l : slab) : bool := match l with LGet _ => true | _ => false end.
Definition gets (tr : list slab) : nat := length (filter is_get tr).
Definition is_kill (l : slab) : bool := match l with LKill => true | _ => false end.
(** Once the observer is disposed at most one more element is read. *)
Definition prompt (tr : list slab) : Prop := forall a b, tr = a ++ LKill :: b -> gets b <= 1.
(** Elements are read in order, each once. *)
Definition in_order (tr : list slab) : Prop := filter is_get tr = map LGet (seq 0 (gets tr)).

Definition is_tick (l : slab) : bool := match l with LTick _ _ => true | _ => false end.
Definition ticks (tr : list slab) : list slab := filter is_tick tr.
