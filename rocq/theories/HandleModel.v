(** Observers in layers: observer_impl around observer_impl around the callbacks.
    /repo/src/rpp/rpp/observers/observer.hpp:27-149, 197-256 (as_dynamic),
    /repo/src/rpp/rpp/observers/dynamic_observer.hpp:22-143,
    /repo/src/rpp/rpp/observables/dynamic_observable.hpp:21-81,
    /repo/src/rpp/rpp/observables/observable.hpp:57-309,
    /repo/src/rpp/rpp/operators/subscribe.hpp:25-210.
    Simplifications: callbacks do not call the observer they belong to (ReentrantModel);
    calls come one at a time; containers of disposables do not overflow (C65); weak wrappers
    of the disposable given to subscribe: WrapModel. *)
From Verif Require Import Base HandleSpec.

(** Disposables that hold the upstream ones: given to subscribe, or the observer's own. *)
Inductive key := KExt (c : nat) | KOwn (c : nat).
Definition keqb (a b : key) : bool :=
  match a, b with KExt x, KExt y | KOwn x, KOwn y => x =? y | _, _ => false end.

(** One observer_impl by its disposable strategy.
    LExt: observer_with_disposable (fwd.hpp:89-92); None: empty wrapper, always disposed.
    LOwn: local_disposable_strategy (disposable_strategy.hpp:68-96).
    LNone: dynamic_observer (observer.hpp:236-257; disposable_strategy.hpp:98-105). *)
Inductive layer := LExt (c : option nat) | LOwn (c : nat) | LNone.
Definition lkey (l : layer) : option key :=
  match l with LExt (Some c) => Some (KExt c) | LOwn c => Some (KOwn c) | _ => None end.

Section Model.
  Context {V : Type}.
  Variable cb : hreact V.

  Record hst := HS {
    h_dis : list key;              (* disposed ones *)
    h_kids : list (key * nat);     (* upstream disposables held *)
    h_rel : list nat;              (* upstream disposables on which dispose() was called *)
    h_log : list (ev V) }.
  Definition h_init : hst := HS [] [] [] [].

  Definition kdis (s : hst) (k : key) : bool := existsb (keqb k) (h_dis s).
  (** composite_disposable.hpp:43-63, disposable_strategy.hpp:86-91. *)
  Definition kdispose (s : hst) (k : key) : hst :=
    if kdis s k then s
    else HS (k :: h_dis s) (h_kids s) (h_rel s ++ map snd (filter (fun x => keqb k (fst x)) (h_kids s))) (h_log s).
  (** composite_disposable.hpp:65-84, disposable_strategy.hpp:75-78. *)
  Definition kadd (s : hst) (k : key) (u : nat) : hst :=
    if kdis s k then HS (h_dis s) (h_kids s) (h_rel s ++ [u]) (h_log s)
    else HS (h_dis s) (h_kids s ++ [(k, u)]) (h_rel s) (h_log s).

  Definition ldis (s : hst) (l : layer) : bool :=
    match l with
    | LExt None => true
    | LNone => false
    | LExt (Some c) => kdis s (KExt c)
    | LOwn c => kdis s (KOwn c)
    end.
  Definition ldispose (s : hst) (l : layer) : hst := match lkey l with Some k => kdispose s k | None => s end.
  Definition ladd (s : hst) (l : layer) (u : nat) : hst := match lkey l with Some k => kadd s k u | None => s end.

  (** observer.hpp:74-77; dynamic_observer.hpp:102, 79-81; lambda_observer.hpp:39: the callbacks are never disposed. *)
  Fixpoint dis (s : hst) (st : list layer) : bool :=
    match st with [] => false | l :: r => ldis s l || dis s r end.

  Definition fire (s : hst) (e : ev V) : hst := HS (h_dis s) (h_kids s) (h_rel s) (h_log s ++ [e]).

  (** observer.hpp:120-129, 135-144; dynamic_observer.hpp:106-107, 76-77. *)
  Fixpoint on_end (s : hst) (st : list layer) (e : ev V) : hst :=
    match st with
    | [] => fire s e
    | l :: r => if dis s st then s else ldispose (on_end s r e) l
    end.

  (** observer.hpp:84-113; dynamic_observer.hpp:104-105, 74-75. *)
  Fixpoint on_next (s : hst) (st : list layer) (v : V) : hst * option exn :=
    match st with
    | [] => let '(ds, x) := cb (h_log s) v in (fold_left (fun s c => kdispose s (KExt c)) ds (fire s (Next v)), x)
    | l :: r =>
        if dis s st then (s, None)
        else let '(s1, x) := on_next s r v in
             match x with None => (s1, None) | Some e => (on_end s1 st (Err e), None) end
    end.

  (** observer.hpp:49-66; dynamic_observer.hpp:101, 78; lambda_observer.hpp:37. *)
  Fixpoint upstream (s : hst) (st : list layer) (u : nat) : hst :=
    match st with
    | [] => s
    | l :: r => if dis s st then HS (h_dis s) (h_kids s) (h_rel s ++ [u]) (h_log s) else upstream (ladd s l u) r u
    end.

  (** Handle i: its own layers around the layers that all handles share. *)
  Variable hs : nat -> list layer.
  Variable base : list layer.
  Definition full (i : nat) : list layer := hs i ++ base.

  Definition h_call (s : hst) (c : hcall V) : hst :=
    match c with
    | HEv i (Next v) => fst (on_next s (full i) v)
    | HEv i e => on_end s (full i) e
    | HUp i u => upstream s (full i) u
    | HDisp c => kdispose s (KExt c)
    end.
  Definition h_run (s : hst) (cs : list (hcall V)) : hst := fold_left h_call cs s.

  (** Overloads of subscribe: the observer given to the source, if the source is started, and
      the disposable returned. *)
  Inductive overload :=
  | SObs (obs : list layer)                        (* observable.hpp:57-71 *)
  | SDObs (d : option nat) (obs : list layer)      (* observable.hpp:109-115 *)
  | PDObs (d : option nat) (obs : list layer)      (* subscribe.hpp:90-95 *)
  | SDStrat (d : option nat)                       (* observable.hpp:126-132 *)
  | WObs (fresh : nat) (obs : list layer)          (* observable.hpp:143-149 *)
  | WDyn (fresh : nat) (obs : list layer)          (* observable.hpp:174-177; obs inside the dynamic observer *)
  | SCall (own : nat)                              (* observable.hpp:182-195 *)
  | WCall (fresh : nat)                            (* observable.hpp:214-226 *)
  | SDCall (d : option nat).                       (* observable.hpp:266-277 *)

  Definition sub_observer (s : hst) (obs : list layer) : option (list layer) := if dis s obs then None else Some obs.
  Definition sub_d_observer (s : hst) (d : option nat) (obs : list layer) : option (list layer) :=
    if ldis s (LExt d) then None else Some (LExt d :: obs).
  Definition subscribe (s : hst) (o : overload) : option (list layer) * option nat :=
    match o with
    | SObs obs => (sub_observer s obs, None)
    | SDObs d obs => (sub_d_observer s d obs, d)
    | PDObs d obs => (sub_observer s (LExt d :: obs), d)
    | SDStrat d => (sub_observer s [LExt d], d)
    | WObs f obs => if dis s obs then (None, None) else (sub_d_observer s (Some f) obs, Some f)
    | WDyn f obs => (sub_d_observer s (Some f) (LNone :: obs), Some f)
    | SCall c => (sub_observer s [LOwn c], None)
    | WCall f => (sub_observer s [LExt (Some f)], Some f)
    | SDCall d => (if ldis s (LExt d) then None else sub_observer s [LExt d], d)
    end.
End Model.
Arguments hst V : clear implicits.
