(** C64: blocking subscription. *)
From Verif Require Import Base.

(** [JCall e]/[JRet e]: the user's callback for e starts / has returned.  [JDispose]: the user
    disposes the subscription.  [JReturn]: subscribe() returns. *)
Inductive blab (V : Type) := JCall (e : ev V) | JRet (e : ev V) | JDispose | JReturn.
Arguments JCall {V} e. Arguments JRet {V} e. Arguments JDispose {V}. Arguments JReturn {V}.

(** The subscription is over: its terminal callback has returned or it was disposed. *)
Definition over {V} (tr : list (blab V)) : Prop :=
  In JDispose tr \/ exists e, is_term e = true /\ In (JRet e) tr.
(** subscribe() returns only then. *)
Definition blocks {V} (tr : list (blab V)) : Prop := forall a b, tr = a ++ JReturn :: b -> over a.
(** The callbacks of these events, one after the other. *)
Definition calls {V} (es : list (ev V)) : list (blab V) := flat_map (fun e => [JCall e; JRet e]) es.
(** A source's events: nothing follows a terminal event. *)
Definition stream {V} (es : list (ev V)) : Prop := forall a e b, es = a ++ e :: b -> is_term e = true -> b = [].
Definition is_return {V} (l : blab V) : bool := match l with JReturn => true | _ => false end.
Definition is_call {V} (l : blab V) : bool := match l with JCall _ => true | _ => false end.
