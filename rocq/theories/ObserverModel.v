(** Model of the final (user) observer: observer_impl + its disposable strategy.
    /repo/src/rpp/rpp/observers/observer.hpp:23-149,
    /repo/src/rpp/rpp/observers/details/disposable_strategy.hpp:68-96,
    /repo/src/rpp/rpp/disposables/details/container.hpp:20-160. *)
From Verif Require Import Base.

Section Observer.
  Context {V : Type}.

  (** Simplification: the user's on_next callback (lambda_observer.hpp:17-41: the
      strategy's on_next is the callback itself) is a function of the history of
      callbacks fired so far; re-entrant calls into the same observer are modelled
      separately in ReentrantModel.v. *)

  (** observer_impl's data: m_is_disposed, m_upstreams
      (disposable_strategy.hpp:93-95), plus two observable effects: the log of
      fired callbacks and the list of disposables on which dispose() was called. *)
  Record ostate := OState {
    o_flag : bool;
    o_up : list nat;
    o_rel : list nat;
    o_log : list (ev V)
  }.

  Definition o_init : ostate := OState false [] [] [].

  Variable cb : list (ev V) -> V -> reaction.
  (** Capacity of m_upstreams: None = dynamic container (container.hpp:20-58),
      Some n = static_disposables_container<n> (container.hpp:71-160). *)
  Variable cap : option nat.
  (** The exception thrown by push_back on a full static container
      (container.hpp:101-106 more_disposables_than_expected). *)
  Variable overflow_exn : exn.

  (** local_disposable_strategy::dispose, disposable_strategy.hpp:86-91. *)
  Definition o_dispose (s : ostate) : ostate :=
    if o_flag s then s
    else OState true (o_up s) (o_rel s ++ o_up s) (o_log s).

  (** observer.hpp:120-129.  finally_action: dispose after the callback. *)
  Definition o_on_error (s : ostate) (e : exn) : ostate :=
    if o_flag s then s
    else o_dispose (OState (o_flag s) (o_up s) (o_rel s) (o_log s ++ [Err e])).

  (** observer.hpp:135-144. *)
  Definition o_on_completed (s : ostate) : ostate :=
    if o_flag s then s
    else o_dispose (OState (o_flag s) (o_up s) (o_rel s) (o_log s ++ [Done])).

  (** observer.hpp:84-95 / 102-113. *)
  Definition o_on_next (s : ostate) (v : V) : ostate :=
    if o_flag s then s
    else
      let r := cb (o_log s) v in
      let s := OState (o_flag s) (o_up s) (o_rel s) (o_log s ++ [Next v]) in
      match r with
      | RCont => s
      | RThrow e => o_on_error s e
      | RDispose => o_dispose s
      | RDisposeThrow e => o_on_error (o_dispose s) e
      end.

  (** static_disposables_container::push_back throws when full,
      container.hpp:101-113. *)
  Definition o_full (s : ostate) : bool :=
    match cap with None => false | Some n => n <=? length (o_up s) end.

  (** observer.hpp:49-66. *)
  Definition o_set_upstream (s : ostate) (d : nat) : ostate :=
    if o_flag s then OState (o_flag s) (o_up s) (o_rel s ++ [d]) (o_log s)
    else if o_full s then o_on_error s overflow_exn
    else OState (o_flag s) (o_up s ++ [d]) (o_rel s) (o_log s).

  Definition o_event (s : ostate) (e : ev V) : ostate :=
    match e with
    | Next v => o_on_next s v
    | Err x => o_on_error s x
    | Done => o_on_completed s
    end.

  Definition o_call (s : ostate) (c : call V) : ostate :=
    match c with
    | CEv e => o_event s e
    | CUpstream d => o_set_upstream s d
    | CDispose => o_dispose s
    end.

  Definition o_run (s : ostate) (cs : list (call V)) : ostate := fold_left o_call cs s.

End Observer.
Arguments ostate V : clear implicits.
