(** What connectable observables and ref_count have to do, as properties of the history of
    calls and of what happens to the source in response. *)
From Verif Require Import Base SubjSpec.

(** Calls: observer i subscribes to the connectable itself, to its ref_count(), unsubscribes;
    connect(); disposal of connection k; the source emits e into its subscription number k. *)
Inductive hop (V : Type) := HSub (i : nat) | HRef (i : nat) | HUnsub (i : nat) | HConnect | HCut (k : nat) | HSrc (k : nat) (e : ev V).
Arguments HSub {V} i.
Arguments HRef {V} i.
Arguments HUnsub {V} i.
Arguments HConnect {V}.
Arguments HCut {V} k.
Arguments HSrc {V} k e.

(** Responses: the source is subscribed as number k; this subscription is disposed; an event of
    the source is passed on. *)
Inductive clab (V : Type) := JOn (k : nat) | JOff (k : nat) | JEmit (e : ev V).
Arguments JOn {V} k.
Arguments JOff {V} k.
Arguments JEmit {V} e.

Section Spec.
  Context {V : Type}.
  (** The history with the responses to each call. *)
  Definition reply := (hop V * list (clab V))%type.

  (** What it means for the observers. *)
  Definition as_sop (o : hop V) : list (sop V) :=
    match o with HSub i | HRef i => [OSub i] | HUnsub i => [OUnsub i] | _ => [] end.
  Definition passed (ls : list (clab V)) : list (sop V) := flat_map (fun l => match l with JEmit e => [OEmit e] | _ => [] end) ls.
  Definition seen (r : list reply) : list (sop V) := flat_map (fun x => as_sop (fst x) ++ passed (snd x)) r.

  (** Connection in force after some responses. *)
  Definition force1 (cur : option nat) (l : clab V) : option nat :=
    match l with JOn k => Some k | JOff _ => None | JEmit _ => cur end.
  Definition in_force (cur : option nat) (r : list reply) : option nat := fold_left force1 (flat_map snd r) cur.
  Definition is_on (cur : option nat) (k : nat) : bool := match cur with Some j => j =? k | None => false end.

  (** The source is subscribed only if it is not, disposed only if it is; an event of the
      source is passed on at once if its subscription is the one in force, and else ignored. *)
  Fixpoint switches (cur : option nat) (ls : list (clab V)) : Prop :=
    match ls with
    | [] => True
    | JOn k :: r => cur = None /\ switches (Some k) r
    | JOff k :: r => cur = Some k /\ switches None r
    | JEmit _ :: _ => False
    end.
  Definition reply_ok (cur : option nat) (x : reply) : Prop :=
    match fst x with
    | HSrc k e => if is_on cur k then exists ls, snd x = JEmit e :: ls /\ (ls = [JOff k] \/ ls = [] /\ is_term e = false) else snd x = []
    | _ => switches cur (snd x)
    end.
  Fixpoint shared (cur : option nat) (r : list reply) : Prop :=
    match r with [] => True | x :: r => reply_ok cur x /\ shared (in_force cur [x]) r end.

  (** connect() alone: it connects unless there is a connection or the source has ended; only
      disposal and the end of the source disconnect. *)
  Definition connect_ok (cur : option nat) (ended : bool) (x : reply) : Prop :=
    match fst x with
    | HConnect => match cur with
                  | None => if ended then snd x = [] else exists k, snd x = [JOn k]
                  | Some _ => snd x = []
                  end
    | HCut k => snd x = if is_on cur k then [JOff k] else []
    | HSrc k e => snd x = if is_on cur k then JEmit e :: (if is_term e then [JOff k] else []) else []
    | _ => snd x = []
    end.
  Definition ends (x : reply) : bool := existsb (fun l => match l with JEmit e => is_term e | _ => false end) (snd x).
  Fixpoint connected_by_call (cur : option nat) (ended : bool) (r : list reply) : Prop :=
    match r with [] => True | x :: r => connect_ok cur ended x /\ connected_by_call (in_force cur [x]) (ended || ends x) r end.

  Definition hsubs (h : list (hop V)) : list nat := flat_map (fun o => match o with HSub i | HRef i => [i] | _ => [] end) h.
  (** Only ref_count is used / it is not used. *)
  Definition counted (h : list (hop V)) : Prop := Forall (fun o => match o with HSub _ | HConnect | HCut _ => False | _ => True end) h.
  Definition uncounted (h : list (hop V)) : Prop := Forall (fun o => match o with HRef _ => False | _ => True end) h.
End Spec.
