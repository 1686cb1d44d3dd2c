(** The gRPC reactors of the rppgrpc extension: extensions/rppgrpc/rppgrpc/details/base.hpp and
    the callbacks of client_reactor.hpp / server_reactor.hpp.

    The events of the source reach the writer through a serialized_publish_subject (base.hpp 101)
    whose lock is held during the whole call (C31, C48), so they are one thread's calls, in
    order, nothing after the terminal one.  The callbacks of the gRPC library run in any number of threads;
    the library reports the end of a write only while one is in flight.  The gRPC library itself
    is not modelled. *)
From Verif Require Import Base Concur GrpcSpec.

Section Grpc.
  Context {V : Type}.

  (** base.hpp 103-105: m_write_mutex, m_write, m_finished; [w_fly]: the library has a write in
      flight; [w_off]: the subject is disposed. *)
  Record wst := WS { w_lock : bool; w_q : list V; w_fin : bool; w_fly : bool; w_off : bool }.
  Definition w_init : wst := WS false [] false false false.
  Definition set_lock s b := WS b (w_q s) (w_fin s) (w_fly s) (w_off s).
  Definition set_q s q := WS (w_lock s) q (w_fin s) (w_fly s) (w_off s).
  Definition set_fin s := WS (w_lock s) (w_q s) true (w_fly s) (w_off s).
  Definition set_fly s b := WS (w_lock s) (w_q s) (w_fin s) b (w_off s).
  Definition set_off s := WS (w_lock s) (w_q s) (w_fin s) (w_fly s) true.

  Inductive wev := ENext (v : V) | EErr | EDone.

  (** Program points. *)
  Inductive witem :=
  | ISrc (e : wev)            (* the subject gets an event *)
  | ILockE (e : wev)          (* base.hpp 73 / 81 / 89: lock_guard *)
  | IPush (v : V)             (* 74: push_back *)
  | IFirst                    (* 75-76: size() == 1 ? start_write(front()) *)
  | IFin (s : status)         (* 82 / 90: m_finished = true *)
  | IEmpty (s : status)       (* 84-85 / 92-93: size() == 0 ? finish_writes(s) *)
  | ICb (ok : bool)           (* the library calls OnWriteDone(ok) *)
  | ILockD                    (* 53: lock_guard of handle_write_done *)
  | IPop                      (* 54: pop_front *)
  | IMore                     (* 56-63 *)
  | IUnlock                   (* end of the lock_guard's scope *)
  | IFinish (s : status)      (* Base::Finish(s) called by a callback *)
  | ICancel                   (* the library calls OnCancel *)
  | IOff.                     (* 46-49: handle_on_done: the subject is disposed *)

  (** start_write(v): hands v to the library (client_reactor.hpp 60-63, 133-136;
      server_reactor.hpp 54-57, 131-134). *)
  Definition start (s : wst) (v : V) : wst * list (wlab V) := (set_fly s true, [WStart v]).

  (** [fl]: what OnWriteDone(false) does: nothing (client_reactor.hpp 81-87, 145-151, server_reactor.hpp 77-83)
      or Finish(OK) (server_write_reactor, server_reactor.hpp 143-152). *)
  Variable fl : list witem.

  Definition wstep (s : wst) (i : witem) : option (wst * list witem * list (wlab V)) :=
    match i with
    | ISrc e => if w_off s then Some (s, [], []) else Some (s, [ILockE e], [])
    | ILockE e => if w_lock s then None
                  else Some (set_lock s true, [match e with ENext v => IPush v | EErr => IFin SInternal | EDone => IFin SOk end], [])
    | IPush v => Some (set_q s (w_q s ++ [v]), [IFirst], [])
    | IFirst => match w_q s with
                | [v] => let (s', ls) := start s v in Some (s', [IUnlock], ls)
                | _ => Some (s, [IUnlock], [])
                end
    | IFin st => Some (set_fin s, [IEmpty st], [])
    | IEmpty st => Some (s, [IUnlock], match w_q s with [] => [WFinish st] | _ => [] end)
    | ICb ok => if w_fly s then Some (set_fly s false, (if ok then [ILockD] else fl), [if ok then WDone else WFail]) else None
    | ILockD => if w_lock s then None else Some (set_lock s true, [IPop], [])
    | IPop => match w_q s with [] => None | _ :: q => Some (set_q s q, [IMore], []) end
    | IMore => match w_q s with
               | v :: _ => let (s', ls) := start s v in Some (s', [IUnlock], ls)
               | [] => Some (s, [IUnlock], if w_fin s then [WFinish SOk] else [])
               end
    | IUnlock => Some (set_lock s false, [], [])
    | IFinish st => Some (s, [], [WFinish st])
    | ICancel => Some (s, [IOff; IFinish SCancelled], [])   (* server_reactor.hpp 93-99, 162-168 *)
    | IOff => Some (set_off s, [], [])
    end.

  (** The source emits [vs] and then possibly ends. *)
  Definition src (vs : list V) (e : ending) : list witem :=
    map ISrc (map ENext vs ++ match e with NoEnd => [] | Completed => [EDone] | Failed => [EErr] end).
  (** The callbacks of the library, each inner list one of its threads. *)
  Definition w_start (vs : list V) (e : ending) (cbs : list (list bool)) : wst * list (list witem) :=
    (w_init, src vs e :: map (map ICb) cbs).
End Grpc.
Arguments wst V : clear implicits.
Arguments witem V : clear implicits.
Arguments wev V : clear implicits.

(** The two kinds of OnWriteDone(false), see [fl] above: nothing or Finish(OK). *)
Definition on_fail {V} (quiet : bool) : list (witem V) := if quiet then [] else [IFinish SOk].

(** base_reader, base.hpp 109-141.  [r_fly]: a read is in flight; [r_busy]: callbacks running;
    [r_over]: OnDone was called.  The library calls OnReadDone once per read, OnDone once and when
    no read is in flight and no callback is running, OnCancel at any moment. *)
Section Reader.
  Context {V : Type}.
  Record rdst := RS { r_fly : bool; r_busy : nat; r_over : bool }.
  (** client_reactor.hpp 47-51, server_reactor.hpp 44-48: handle_read_done(true) starts the first read. *)
  Definition r_init : rdst := RS true 0 false.

  Inductive ritem :=
  | QCb (v : option V)     (* OnReadDone(true) with v in m_data, OnReadDone(false) *)
  | QNext (v : V)          (* 126: on_next(m_data) is called *)
  | QOut                   (* 126: ... returns *)
  | QStart                 (* 127: start_read; the callback returns *)
  | QRet                   (* the callback returns *)
  | QDone (e : ev V)    (* OnDone: client_reactor.hpp 89-94, server_reactor.hpp 85-91 *)
  | QCancel (e : ev V)  (* OnCancel: server_reactor.hpp 93-99, 162-168, 221-224 *)
  | QEnd (e : ev V)     (* 130-136: on_error / on_completed is called *)
  | QEndOut.               (* ... returns *)

  Definition rstep (s : rdst) (i : ritem) : option (rdst * list ritem * list (rlab V)) :=
    match i with
    | QCb o => if r_fly s && negb (r_over s) then
                 match o with
                 | Some v => Some (RS false (S (r_busy s)) (r_over s), [QNext v], [RRead v])
                 | None => Some (RS false (S (r_busy s)) (r_over s), [QRet], [])
                 end
               else None
    | QNext v => Some (s, [QOut], [RIn (Next v)])
    | QOut => Some (s, [QStart], [ROut])
    | QStart => Some (RS true (pred (r_busy s)) (r_over s), [], [])
    | QRet => Some (RS (r_fly s) (pred (r_busy s)) (r_over s), [], [])
    | QDone e => if negb (r_fly s) && (r_busy s =? 0) && negb (r_over s) then Some (RS (r_fly s) (r_busy s) true, [QEnd e], []) else None
    | QCancel e => Some (s, [QEnd e], [])
    | QEnd e => Some (s, [QEndOut], [RIn e])
    | QEndOut => Some (s, [], [ROut])
    end.

  (** Threads of the library making these callbacks. *)
  Definition r_start (ts : list (list ritem)) : rdst * list (list ritem) := (r_init, ts).
End Reader.
Arguments ritem V : clear implicits.
