(** Observers reached through several handles - copies of a dynamic observer,
    subscriptions with a disposable: what is done to them. *)
From Verif Require Import Base ObserverSpec.

Section Spec.
  Context {V : Type}.
  Inductive hcall :=
  | HEv (i : nat) (e : ev V)     (* on_next / on_error / on_completed through handle i *)
  | HUp (i u : nat)              (* set_upstream(u) through handle i *)
  | HDisp (c : nat).             (* dispose() of the disposable c given to subscribe *)

  (** What on_next of the user does: disposes some of those disposables, then returns or throws. *)
  Definition hreact := list (ev V) -> V -> list nat * option exn.

  (** Everything that was handed over. *)
  Fixpoint handed (cs : list hcall) : list (nat * nat) :=
    match cs with [] => [] | HUp i u :: r => (i, u) :: handed r | _ :: r => handed r end.

  (** Somebody has asked for the disposal of c: from outside or in a callback that has fired. *)
  Definition asked_for (cb : hreact) (cs : list hcall) (log : list (ev V)) (c : nat) : Prop :=
    In (HDisp c) cs \/ exists h v, prefix (h ++ [Next v]) log /\ In c (fst (cb h v)).
End Spec.
Arguments hcall V : clear implicits.
Arguments hreact V : clear implicits.
