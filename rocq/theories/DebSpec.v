(** What debounce has to do. *)
From Verif Require Import Base DelaySpec.

Section Spec.
  Context {V : Type}.
  Variable exact : bool.   (* the timer is never late *)
  Variable d : nat.
  Variable now : option nat.   (* the current time; None: nothing more can happen *)

  (** The next event, if any, came no earlier than [x]. *)
  Definition not_before (x : nat) (r : list (ev V * nat)) : Prop := match r with [] => True | (_, a') :: _ => x <= a' end.
  (** The next event is the completion, and the value is flushed at [t]. *)
  Definition flushed (a t : nat) (r : list (ev V * nat)) : Prop :=
    match r with [(Done, a')] => a' <= t /\ (exact = true -> t = a' /\ a' <= a + d) | _ => False end.
  (** A value that came at [a] may be missing: it still has time; a newer value or an error
      came (within d, if the timer is never late); the source completed no earlier than a+d. *)
  Definition missing (a : nat) (r : list (ev V * nat)) : Prop :=
    match r with
    | [] => match now with None => False | Some n => exact = true -> n <= a + d end
    | (Done, a') :: _ => a + d <= a' /\ (exact = true -> a' <= a + d)
    | (_, a') :: _ => exact = true -> a' <= a + d
    end.
  Fixpoint debounced (i o : list (ev V * nat)) : Prop :=
    match i with
    | [] => o = []
    | (Next v, a) :: r =>
        (exists t o', o = (Next v, t) :: o' /\ debounced r o' /\
           (a + d <= t /\ (exact = true -> t = a + d) /\ not_before (a + d) r \/ flushed a t r)) \/
        missing a r /\ debounced r o
    | (e, a) :: r => exists t, o = [(e, t)] /\ r = [] /\ a <= t /\ (exact = true -> t = a)
    end.
End Spec.

(** The timer is never late and no event comes exactly d after a value: there is one outcome. *)
Section Exact.
  Context {V : Type}.
  Variable d : nat.
  Fixpoint untied (i : list (ev V * nat)) : Prop :=
    match i with
    | [] => True
    | (_, a) :: r => untied r /\ match r with [] => True | (_, a') :: _ => a' <> a + d end
    end.
  Fixpoint outcome (i : list (ev V * nat)) : list (ev V * nat) :=
    match i with
    | [] => []
    | (Next v, a) :: r =>
        match r with
        | [] => [(Next v, a + d)]
        | (e, a') :: _ =>
            if a + d <? a' then (Next v, a + d) :: outcome r
            else match e with Done => (Next v, a') :: outcome r | _ => outcome r end
        end
    | (e, a) :: _ => [(e, a)]
    end.
End Exact.
