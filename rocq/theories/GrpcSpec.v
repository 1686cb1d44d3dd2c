(** C54, C62, C63: what a gRPC reactor asks the gRPC library to do. *)
From Verif Require Import Base.

Inductive status := SOk | SInternal | SCancelled.

(** [WStart v]: StartWrite(v).  [WDone]/[WFail]: the library reports that the write succeeded or
    failed.  [WFinish s]: StartWritesDone / Finish(s). *)
Inductive wlab (V : Type) := WStart (v : V) | WDone | WFail | WFinish (s : status).
Arguments WStart {V} v. Arguments WDone {V}. Arguments WFail {V}. Arguments WFinish {V} s.

(** All of [vs], one write at a time. *)
Definition writes {V} (vs : list V) : list (wlab V) := flat_map (fun v => [WStart v; WDone]) vs.

(** [tr] is a beginning of: all of [vs] in order, each write after the previous one was done,
    then [fin]; or it stops at the first write that failed, followed by at most [fl]. *)
Definition written {V} (vs : list V) (fin fl tr : list (wlab V)) : Prop :=
  exists rest, tr ++ rest = writes vs ++ fin \/
    exists a v b, vs = a ++ v :: b /\ tr ++ rest = writes a ++ [WStart v; WFail] ++ fl.

(** What must follow the values: nothing if the source did not end, OK if it completed, an
    error status if it failed. *)
Inductive ending := NoEnd | Completed | Failed.
Definition fin_of {V} (e : ending) : list (wlab V) :=
  match e with NoEnd => [] | Completed => [WFinish SOk] | Failed => [WFinish SInternal] end.

Definition is_finish {V} (l : wlab V) : bool := match l with WFinish _ => true | _ => false end.
Definition finishes {V} (tr : list (wlab V)) : nat := length (filter is_finish tr).

(** Reading: [RRead v]: the library reports that v was read.  [RIn e]/[ROut]: the reactor's
    observable starts / has finished to emit e. *)
Inductive rlab (V : Type) := RRead (v : V) | RIn (e : ev V) | ROut.
Arguments RRead {V} v. Arguments RIn {V} e. Arguments ROut {V}.

(** Each value read is emitted before anything else happens, one emission at a time, then at
    most one terminal event and nothing after it. *)
Inductive rst (V : Type) := RIdle | RGot (v : V) | RCall | RLast | REnd.
Arguments RIdle {V}. Arguments RGot {V} v. Arguments RCall {V}. Arguments RLast {V}. Arguments REnd {V}.
Inductive rmove {V} : rst V -> rlab V -> rst V -> Prop :=
| MRead : forall v, rmove RIdle (RRead v) (RGot v)
| MNext : forall v, rmove (RGot v) (RIn (Next v)) RCall
| MOut : rmove RCall ROut RIdle
| MTerm : forall e, (forall v, e <> Next v) -> rmove RIdle (RIn e) RLast
| MEnd : rmove RLast ROut REnd.
Inductive rmoves {V} : list (rlab V) -> rst V -> Prop :=
| RNil : rmoves [] RIdle
| RSnoc : forall tr s l s', rmoves tr s -> rmove s l s' -> rmoves (tr ++ [l]) s'.
