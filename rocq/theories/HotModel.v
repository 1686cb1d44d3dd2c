(** Subscribing to a subject while it emits on another thread.
    /repo/src/rpp/rpp/subjects/details/subject_state.hpp:54-190,
    /repo/src/rpp/rpp/observers/observer.hpp:49-144,
    /repo/src/rpp/rpp/observers/details/disposable_strategy.hpp:69-96 (local_disposable_strategy, used by
    subscribe without a disposable: subject_state.hpp:75, observable.hpp:83-90, 183-194) and
    /repo/src/rpp/rpp/disposables/composite_disposable.hpp:40-110 (the disposable strategy when a disposable is
    passed to subscribe: observable.hpp:110-132, 269-275).
    Simplifications: the critical sections of the subject's mutex are one step each; dispose() and add() of a
    composite_disposable are one step each (C09); values are not modelled (C48-C51), an observer only decides
    after how many of them it ends; on_error is as on_completed; the iterators kept by on_next
    while the list grows are the subject of C49.  Disposing an entry of the subject twice has no
    effect (C08) and neither has removing it twice. *)
From Verif Require Import Base Concur HotSpec.

Record hst := HS {
  h_list : list nat;       (* subject_state.hpp 190: m_state, the observers *)
  h_over : bool;           (* m_state holds [completed] *)
  h_flag : nat -> bool;    (* the observer's is_disposed() *)
  h_up : nat -> bool;      (* the observer holds its upstream *)
  h_seen : nat -> nat      (* values it was called with *)
}.
Definition upd {A} (f : nat -> A) (i : nat) (x : A) : nat -> A := fun j => if j =? i then x else f j.
Definition h_init : hst := HS [] false (fun _ => false) (fun _ => false) (fun _ => 0).

Inductive hitem :=
| ISub (i : nat)           (* on_subscribe: subject_state.hpp 80-110 *)
| ICheck (i : nat)         (* 100: set_upstream; observer.hpp:51 *)
| IAdd (i : nat)           (* observer.hpp:59 *)
| IDrop (i : nat)          (* subject_state.hpp 54-64, 159-172: the entry of i is disposed *)
| IEmit                    (* 112-131: on_next *)
| ICall (i : nat)          (* 130, observer.hpp:84-95 *)
| IDone                    (* 143-151: on_completed *)
| IEnd (i : nat)           (* observer.hpp:135-144: on_completed *)
| ISet (i : nat)           (* 140: m_disposable.dispose(); disposable_strategy.hpp:89 *)
| ISweep (i : nat)         (* disposable_strategy.hpp:90 *)
| IKill (i : nat).         (* the user disposes the disposable passed to subscribe *)

Section Hot.
  (** Observer i was subscribed with a composite_disposable. *)
  Variable ext : nat -> bool.
  (** Observer i ends (take, first, an exception ...) while handling its k-th value. *)
  Variable stops : nat -> nat -> bool.

  Definition hold (s : hst) (l : list nat) (o : bool) : hst := HS l o (h_flag s) (h_up s) (h_seen s).
  Definition h_dispose (s : hst) (i : nat) : hst * list hitem * list hlab :=
    (HS (h_list s) (h_over s) (upd (h_flag s) i true) (h_up s) (h_seen s),
     if ext i then if h_up s i then [IDrop i] else [] else [ISweep i],
     if ext i then [HEnds i; HSwept i] else [HEnds i]).

  Definition hstep (s : hst) (it : hitem) : option (hst * list hitem * list hlab) :=
    match it with
    | ISub i => if h_over s then Some (s, [IEnd i], [])
                else Some (hold s (h_list s ++ [i]) false, [ICheck i], [HJoin i])
    | ICheck i => if h_flag s i then Some (s, [IDrop i], []) else Some (s, [IAdd i], [HLook i])
    | IAdd i => if ext i && h_flag s i then Some (s, [IDrop i], [])
                else Some (HS (h_list s) (h_over s) (h_flag s) (upd (h_up s) i true) (h_seen s), [], [HPut i])
    | IDrop i => let out j := (j =? i) || h_flag s j in
                 Some (hold s (filter (fun j => negb (out j)) (h_list s)) (h_over s), [], map HLeave (filter out (h_list s)))
    | IEmit => Some (s, map ICall (h_list s), [])
    | ICall i => if h_flag s i then Some (s, [], [])
                 else Some (HS (h_list s) (h_over s) (h_flag s) (h_up s) (upd (h_seen s) i (S (h_seen s i))),
                            if stops i (S (h_seen s i)) then [IEnd i] else [], [HGot i])
    | IDone => Some (hold s [] true, map IEnd (h_list s), map HLeave (h_list s))
    | IEnd i => if h_flag s i then Some (s, [], []) else Some (s, [ISet i], [])
    | ISet i => Some (h_dispose s i)
    | ISweep i => Some (s, if h_up s i then [IDrop i] else [], [HSwept i])
    | IKill i => if ext i then Some (h_dispose s i) else Some (s, [], [])
    end.
End Hot.

(** What the threads do: subscribe, emit, complete, dispose. *)
Inductive hop := HSub (i : nat) | HEmit | HDone | HKill (i : nat).
Definition h_op (o : hop) : hitem :=
  match o with HSub i => ISub i | HEmit => IEmit | HDone => IDone | HKill i => IKill i end.
Definition h_start (ts : list (list hop)) : hst * list (list hitem) := (h_init, map (map h_op) ts).
