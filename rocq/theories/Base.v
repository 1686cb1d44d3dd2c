(** Common vocabulary: events, outcomes of user functions, list helpers. *)
From Coq Require Export List Arith Lia Bool.
Export ListNotations.
Set Implicit Arguments.

(** An exception value ([std::exception_ptr]); opaque, only compared for identity. *)
Definition exn := nat.

(** One notification of an observable: rpp/observers/observer.hpp:84-144
    (on_next / on_error / on_completed). *)
Inductive ev (V : Type) : Type :=
| Next (v : V)
| Err (e : exn)
| Done.
Arguments Next {V} v.
Arguments Err {V} e.
Arguments Done {V}.

(** Outcome of a user supplied function: a value or a thrown exception. *)
Inductive res (A : Type) : Type :=
| Ok (a : A)
| Throw (e : exn).
Arguments Ok {A} a.
Arguments Throw {A} e.

Definition is_term {V} (e : ev V) : bool :=
  match e with Next _ => false | _ => true end.

(** Values pushed before the first terminal event. *)
Fixpoint vals {V} (l : list (ev V)) : list V :=
  match l with
  | Next v :: r => v :: vals r
  | _ => []
  end.

(** First terminal event, if any. *)
Fixpoint term {V} (l : list (ev V)) : option (ev V) :=
  match l with
  | [] => None
  | Next _ :: r => term r
  | t :: _ => Some t
  end.

Definition opt_list {A} (o : option A) : list A :=
  match o with Some a => [a] | None => [] end.

(** A terminal event re-typed (it carries no value). *)
Definition retype {A B} (e : ev A) : ev B :=
  match e with Err x => Err x | _ => Done end.

(** The terminal part of a well-formed stream. *)
Definition term_list {A B} (l : list (ev A)) : list (ev B) :=
  match term l with Some (Err x) => [Err x] | Some Done => [Done] | _ => [] end.

(** What a user's on_next callback does: returns, throws, disposes the own
    subscription, or disposes it and throws. *)
Inductive reaction := RCont | RThrow (e : exn) | RDispose | RDisposeThrow (e : exn).

(** Calls that can be made on an observer (observer.hpp:49-144) or on the
    disposable attached to its subscription. *)
Inductive call (V : Type) :=
| CEv (e : ev V)          (* on_next / on_error / on_completed *)
| CUpstream (d : nat)     (* set_upstream(d); d identifies the disposable *)
| CDispose.               (* dispose of the subscription from outside *)
Arguments CEv {V} e.
Arguments CUpstream {V} d.
Arguments CDispose {V}.
