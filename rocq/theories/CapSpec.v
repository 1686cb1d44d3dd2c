(** What the statically chosen place for upstream disposables has to satisfy. *)
From Verif Require Import Base.

(** [None]: grows; [Some c]: place for c disposables, one more is an error. *)
Definition fits (cap : option nat) (n : nat) : Prop :=
  match cap with None => True | Some c => n <= c end.

(** Number of disposables handed to an observer. *)
Fixpoint upstreams {V} (cs : list (call V)) : nat :=
  match cs with
  | [] => 0
  | CUpstream _ :: r => S (upstreams r)
  | _ :: r => upstreams r
  end.
