(** What C88 says, without the model: a connectable observable that is connected, disconnected and
    connected again by several threads. *)
From Verif Require Import Base.

Section Spec.
  Context {V : Type}.
  (** Connection k: the source is subscribed; the connection is disposed; the source's own
      subscription is disposed; the subject stores it; the subscribers of the connectable
      observable are called with an event of connection k; this call returns. *)
  Inductive nlab := NOn (k : nat) | NOff (k : nat) | NFree (k : nat) | NKeep (k : nat) | NBeg (k : nat) (e : ev V) | NEnd (k : nat).

  (** A source is subscribed only when every earlier connection has been disposed, and only once. *)
  Definition one_connection (tr : list nlab) : Prop :=
    forall a k b, tr = a ++ NOn k :: b -> ~ In (NOn k) a /\ forall j, In (NOn j) a -> In (NOff j) a.
  (** The events of connection k the subscribers are called with. *)
  Fixpoint shown (k : nat) (tr : list nlab) : list (ev V) :=
    match tr with
    | [] => []
    | NBeg j e :: r => if j =? k then e :: shown k r else shown k r
    | _ :: r => shown k r
    end.
  (** Those of them whose call begins after connection k was disposed. *)
  Fixpoint after_off (k : nat) (off : bool) (tr : list nlab) : list (ev V) :=
    match tr with
    | [] => []
    | NBeg j e :: r => if (j =? k) && off then e :: after_off k off r else after_off k off r
    | NOff j :: r => after_off k ((j =? k) || off) r
    | _ :: r => after_off k off r
    end.
  (** The calls of connection k do not overlap. *)
  Fixpoint alternates (k : nat) (busy : bool) (tr : list nlab) : Prop :=
    match tr with
    | [] => True
    | NBeg j _ :: r => if j =? k then busy = false /\ alternates k true r else alternates k busy r
    | NEnd j :: r => if j =? k then busy = true /\ alternates k false r else alternates k busy r
    | _ :: r => alternates k busy r
    end.
  Fixpoint busy_after (k : nat) (busy : bool) (tr : list nlab) : bool :=
    match tr with
    | [] => busy
    | NBeg j _ :: r => busy_after k (if j =? k then true else busy) r
    | NEnd j :: r => busy_after k (if j =? k then false else busy) r
    | _ :: r => busy_after k busy r
    end.
  Definition busy (k : nat) (tr : list nlab) : bool := busy_after k false tr.
  (** Once a call with a terminal event has begun, no other call begins. *)
  Definition ends (tr : list nlab) : Prop := exists k e, In (NBeg k e) tr /\ is_term e = true.
  Definition sealed (tr : list nlab) : Prop :=
    forall a k e b, tr = a ++ NBeg k e :: b -> is_term e = true -> forall j e', ~ In (NBeg j e') b.
  Definition frees (k : nat) (tr : list nlab) : nat := length (filter (fun x => match x with NFree j => j =? k | _ => false end) tr).
End Spec.
Arguments nlab : clear implicits.
