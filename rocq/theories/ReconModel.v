(** connect() of a connectable observable, called by any number of threads, and what the sources of
    several connections do to its subject.
    /repo/src/rpp/rpp/observables/connectable_observable.hpp:100-115,
    /repo/src/rpp/rpp/observables/observable.hpp:110-116,
    /repo/src/rpp/rpp/observers/observer.hpp:49-144,
    /repo/src/rpp/rpp/subjects/publish_subject.hpp:24-62, subjects/details/subject_state.hpp:112-157.
    Simplifications: the subject is not serialized; it has subscribers throughout (entering and leaving it:
    C48, C87); dispose() and add() of a composite disposable are one step each (C09); the source of connection k hands
    over one disposable and emits script k on a thread of its own as soon as it has been subscribed
    (this includes sources that emit before they hand it over); on_error is as on_completed.  A source that emits inside
    subscribe() is the schedule in which the connecting thread does nothing until then. *)
From Verif Require Import Base Concur ReconSpec.

Section Recon.
  Context {V : Type}.
  Record nst := NS {
    n_made : nat;              (* disposables passed to m_original_observable.subscribe so far *)
    n_cur : option nat;        (* connectable_observable.hpp: m_state->disposable; None: the empty one *)
    n_on : nat -> bool;        (* source k has been subscribed *)
    n_off : nat -> bool;       (* disposable k is disposed *)
    n_held : nat -> bool;      (* disposable k holds the disposable of source k *)
    n_freed : nat -> bool;     (* ... which has been disposed *)
    n_kept : list nat;         (* the subject's state, a composite disposable, holds these: publish_subject.hpp:30 *)
    n_comp : bool;             (* subject_state.hpp 190: m_state holds [completed] *)
    n_disp : bool;             (* the subject's state is disposed: 140, 150 *)
    n_src : nat -> list (ev V) (* what source k is still to emit *)
  }.
  Definition set {A} (f : nat -> A) (k : nat) (x : A) : nat -> A := fun j => if j =? k then x else f j.

  Inductive nitem :=
  | NConn                      (* connect(): 102-105 *)
  | NPick                      (* 107-111 *)
  | NSubs (k : nat)            (* 113, observable.hpp:112-113 *)
  | NSet (k : nat)             (* observer.hpp:51-55: set_upstream *)
  | NAddW (k : nat)            (* 59: add to disposable k *)
  | NAddS (k : nat)            (* 60, publish_subject.hpp:30: add to the subject's state *)
  | NDispose (k : nat)         (* the user disposes what connect() returned *)
  | NSrc (k : nat)             (* the thread of source k: is_disposed(), observer.hpp:74-77, 84-144 *)
  | NCall (k : nat) (e : ev V) (* subject_state.hpp:112-127 or 143-147 *)
  | NRet (k : nat) (e : ev V)  (* 130 or 148: the subscribers return *)
  | NSubj (k : nat)            (* 150: dispose() of the subject *)
  | NFin (k : nat).            (* observer.hpp:140: the observer of connection k disposes disposable k *)

  Definition free (k : nat) (s : nst) : nst :=
    NS (n_made s) (n_cur s) (n_on s) (n_off s) (n_held s) (set (n_freed s) k true) (n_kept s) (n_comp s) (n_disp s) (n_src s).
  Definition lfree (k : nat) (s : nst) : list (nlab V) := if n_freed s k then [] else [NFree k].
  (** composite_disposable.hpp: dispose() of disposable k *)
  Definition off (k : nat) (s : nst) : nst * list (nlab V) :=
    if n_off s k then (s, [])
    else let s' := NS (n_made s) (n_cur s) (n_on s) (set (n_off s) k true) (n_held s) (n_freed s) (n_kept s) (n_comp s) (n_disp s) (n_src s) in
         if n_held s k then (free k s', NOff k :: lfree k s) else (s', [NOff k]).
  Definition all_free (l : list nat) (s : nst) : nst * list (nlab V) :=
    fold_left (fun a k => (free k (fst a), snd a ++ lfree k (fst a))) l (s, []).

  Definition nstep (s : nst) (it : nitem) : option (nst * list nitem * list (nlab V)) :=
    match it with
    | NConn => Some (s, if n_disp s then [] else [NPick], [])
    | NPick =>
        if match n_cur s with Some k => n_off s k | None => true end
        then Some (NS (S (n_made s)) (Some (n_made s)) (n_on s) (n_off s) (n_held s) (n_freed s) (n_kept s) (n_comp s) (n_disp s) (n_src s), [NSubs (n_made s)], [])
        else Some (s, [], [])
    | NSubs k =>
        if n_off s k then Some (s, [], [])
        else Some (NS (n_made s) (n_cur s) (set (n_on s) k true) (n_off s) (n_held s) (n_freed s) (n_kept s) (n_comp s) (n_disp s) (n_src s), [NSet k], [NOn k])
    | NSet k => if n_off s k || n_disp s then Some (free k s, [], lfree k s) else Some (s, [NAddW k], [])
    | NAddW k =>
        if n_off s k then Some (free k s, [NAddS k], lfree k s)
        else Some (NS (n_made s) (n_cur s) (n_on s) (n_off s) (set (n_held s) k true) (n_freed s) (n_kept s) (n_comp s) (n_disp s) (n_src s), [NAddS k], [])
    | NAddS k =>
        if n_disp s then Some (free k s, [], lfree k s)
        else Some (NS (n_made s) (n_cur s) (n_on s) (n_off s) (n_held s) (n_freed s) (k :: n_kept s) (n_comp s) (n_disp s) (n_src s), [], [NKeep k])
    | NDispose k => if k <? n_made s then let (s', ls) := off k s in Some (s', [], ls) else Some (s, [], [])
    | NSrc k =>
        if n_on s k then
          match n_src s k with
          | [] => Some (s, [], [])
          | e :: r =>
              Some (NS (n_made s) (n_cur s) (n_on s) (n_off s) (n_held s) (n_freed s) (n_kept s) (n_comp s) (n_disp s) (set (n_src s) k r),
                    if n_off s k || n_disp s then [NSrc k] else [NCall k e], [])
          end
        else None
    | NCall k e =>
        if n_comp s then Some (s, if is_term e then [NSubj k] else [NSrc k], [])
        else Some (NS (n_made s) (n_cur s) (n_on s) (n_off s) (n_held s) (n_freed s) (n_kept s) (is_term e) (n_disp s) (n_src s), [NRet k e], [NBeg k e])
    | NRet k e => Some (s, if is_term e then [NSubj k] else [NSrc k], [NEnd k])
    | NSubj k =>
        let (s', ls) := all_free (n_kept s) s in
        Some (NS (n_made s') (n_cur s') (n_on s') (n_off s') (n_held s') (n_freed s') [] (n_comp s') true (n_src s'), [NFin k], ls)
    | NFin k => let (s', ls) := off k s in Some (s', [NSrc k], ls)
    end.

  Definition n_init (script : nat -> list (ev V)) : nst :=
    NS 0 None (fun _ => false) (fun _ => false) (fun _ => false) (fun _ => false) [] false false script.
  (** The threads of the users; the threads of the sources of the connections. *)
  Inductive nop := UConnect | UDispose (k : nat).
  Definition n_op (o : nop) : nitem := match o with UConnect => NConn | UDispose k => NDispose k end.
  Definition n_threads (users : list (list nop)) (sources : nat) : list (list nitem) :=
    map (map n_op) users ++ map (fun k => [NSrc k]) (seq 0 sources).
End Recon.
Arguments nst : clear implicits.
Arguments nitem : clear implicits.
