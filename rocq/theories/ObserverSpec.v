(** Meaning of C01-C03, independent of the model. *)
From Verif Require Import Base.

(** on_next* (on_error | on_completed)? *)
Definition grammatical {V} (l : list (ev V)) : Prop :=
  exists (vs : list V) (t : list (ev V)),
    l = map Next vs ++ t /\ (t = [] \/ t = [Done] \/ exists e, t = [Err e]).

(** [a] is a prefix of [b]. *)
Definition prefix {A} (a b : list A) : Prop := exists c, b = a ++ c.

(** The values appearing in a log, in order. *)
Fixpoint log_values {V} (l : list (ev V)) : list V :=
  match l with
  | [] => []
  | Next v :: r => v :: log_values r
  | _ :: r => log_values r
  end.

(** The part of a call sequence that can have an effect on deliveries: the events
    pushed up to and including the first terminal one, cut at the first dispose. *)
Fixpoint live_events {V} (cs : list (call V)) : list (ev V) :=
  match cs with
  | [] => []
  | CDispose :: _ => []
  | CUpstream _ :: r => live_events r
  | CEv (Next v) :: r => Next v :: live_events r
  | CEv t :: _ => [t]
  end.

(** All disposables handed over by set_upstream, in call order. *)
Fixpoint upstreams {V} (cs : list (call V)) : list nat :=
  match cs with
  | [] => []
  | CUpstream d :: r => d :: upstreams r
  | _ :: r => upstreams r
  end.

Definition has_terminal {V} (l : list (ev V)) : Prop :=
  In Done l \/ exists e, In (Err e) l.

(** The callback only ever returns normally. *)
Definition well_behaved {V} (cb : list (ev V) -> V -> reaction) : Prop :=
  forall h v, cb h v = RCont.
