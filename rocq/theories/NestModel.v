(** publish_subject with nested emissions (C79).
    /repo/src/rpp/rpp/subjects/details/subject_state.hpp:112-151, publish_subject.hpp:24-39.
    The subscribers are there before the first emission (subscribing from inside a
    callback is C49); a subscriber's subscription may be disposed at any time. *)
From Verif Require Import Base NestSpec.

Section Nest.
  Context {V : Type}.

  (** [n_subs]: the observers in the deque, in order of subscription; a disposed observer
      may stay in the deque an emission is walking over, where it ignores the call
      (subject_state.hpp:159-172, observer.hpp:87).  [n_over]: m_state is no longer the
      observers (or the subject is disposed).  [n_walks]: running std::for_each loops,
      innermost first: the value and the observers not yet called. *)
  Record nst := NSt { n_subs : list nat; n_dead : nat -> bool; n_over : bool; n_walks : list (V * list nat); n_log : list (nat * ev V) }.

  Definition n_init (subs : list nat) : nst := NSt subs (fun _ => false) false [] [].

  (** 130: go on with the loop until a callback begins or the loop ends. *)
  Fixpoint walk (v : V) (rest : list nat) (st : nst) : nst :=
    match rest with
    | [] => st
    | i :: r => if n_dead st i then walk v r st
                else NSt (n_subs st) (n_dead st) (n_over st) ((v, r) :: n_walks st) (n_log st ++ [(i, Next v)])
    end.

  (** 136-137, 147-148: every observer gets the terminal event and is disposed by it; its
      callback calls nothing that has an effect (the state is exchanged first). *)
  Fixpoint finish (e : ev V) (rest : list nat) (st : nst) : nst :=
    match rest with
    | [] => st
    | i :: r => if n_dead st i then finish e r st
                else finish e r (NSt (n_subs st) (fun j => (j =? i) || n_dead st j) (n_over st) (n_walks st) (n_log st ++ [(i, e)]))
    end.

  Definition nstep (st : nst) (a : nact V) : option nst :=
    match a with
    | NPush e =>
        if n_over st then Some st        (* 116-117; observer.hpp:87, 122, 137 *)
        else match e with
             | Next v => Some (walk v (n_subs st) st)
             | _ => Some (finish e (n_subs st) (NSt (n_subs st) (n_dead st) true (n_walks st) (n_log st)))
             end
    | NReturn =>
        match n_walks st with
        | [] => None
        | (v, r) :: w => Some (walk v r (NSt (n_subs st) (n_dead st) (n_over st) w (n_log st)))
        end
    | NStop i => Some (NSt (n_subs st) (fun j => (j =? i) || n_dead st j) (n_over st) (n_walks st) (n_log st))
    end.
  Fixpoint nruns (st : nst) (tr : list (nact V)) : option nst :=
    match tr with
    | [] => Some st
    | a :: r => match nstep st a with Some st' => nruns st' r | None => None end
    end.
  Definition nrun (subs : list nat) (tr : list (nact V)) : option nst := nruns (n_init subs) tr.
End Nest.
Arguments nst V : clear implicits.
