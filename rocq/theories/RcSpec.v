(** What ref_count has to do, on the events seen from outside. *)
From Verif Require Import Base.

(** An observer subscribes to and leaves the shared observable; the source is subscribed with
    disposable k; disposable k is disposed (its events are ignored from here on); the
    subscription of the source made with k is disposed. *)
Inductive rlab := LIn | LOut | LOn (k : nat) | LOff (k : nat) | LFree (k : nat).

(** The source subscription in force. *)
Fixpoint force (cur : option nat) (tr : list rlab) : option nat :=
  match tr with
  | [] => cur
  | LOn k :: r => force (Some k) r
  | LOff k :: r => force (match cur with Some j => if j =? k then None else cur | None => None end) r
  | _ :: r => force cur r
  end.
(** A new one is made only when there is none. *)
Fixpoint one_at_a_time (cur : option nat) (tr : list rlab) : Prop :=
  match tr with
  | [] => True
  | LOn k :: r => cur = None /\ one_at_a_time (Some k) r
  | LOff k :: r => one_at_a_time (match cur with Some j => if j =? k then None else cur | None => None end) r
  | _ :: r => one_at_a_time cur r
  end.
(** Observers present. *)
Fixpoint present (n : nat) (tr : list rlab) : nat :=
  match tr with [] => n | LIn :: r => present (S n) r | LOut :: r => present (n - 1) r | _ :: r => present n r end.
(** Every source subscription is disposed in the end. *)
Definition all_freed (tr : list rlab) : Prop := forall k, In (LOn k) tr -> In (LFree k) tr.
