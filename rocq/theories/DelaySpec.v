(** What delay and observe_on have to do. *)
From Verif Require Import Base.

Section Spec.
  Context {V : Type}.
  (** The operator accepts an event at a time; the downstream observer's callback begins at a
      time, and ends; the downstream observer is disposed from outside. *)
  Inductive dlab := DIn (e : ev V) (t : nat) | DBeg (e : ev V) (t : nat) | DEnd | DKill.

  Definition ins (tr : list dlab) : list (ev V * nat) := flat_map (fun l => match l with DIn e t => [(e, t)] | _ => [] end) tr.
  Definition shown (tr : list dlab) : list (ev V * nat) := flat_map (fun l => match l with DBeg e t => [(e, t)] | _ => [] end) tr.

  (** What is shown is a beginning of what was accepted, each at least [d] later. *)
  Definition delayed (d : nat) (i o : list (ev V * nat)) : Prop :=
    exists seen rest, i = seen ++ rest /\ Forall2 (fun a b => fst a = fst b /\ snd a + d <= snd b) seen o.

  (** Callbacks do not overlap. *)
  Fixpoint serial (busy : bool) (tr : list dlab) : Prop :=
    match tr with
    | [] => True
    | DBeg _ _ :: r => busy = false /\ serial true r
    | DEnd :: r => serial false r
    | _ :: r => serial busy r
    end.

  (** No callback begins after disposal. *)
  Definition stops (tr : list dlab) : Prop := forall a b e t, tr = a ++ DKill :: b -> ~ In (DBeg e t) b.

  (** The events of a source up to its terminal event. *)
  Fixpoint clip (l : list (ev V)) : list (ev V) :=
    match l with
    | [] => []
    | Next v :: r => Next v :: clip r
    | e :: _ => [e]
    end.
  Definition no_error (l : list (ev V)) : Prop := forall x, ~ In (Err x) l.
End Spec.
Arguments dlab V : clear implicits.
