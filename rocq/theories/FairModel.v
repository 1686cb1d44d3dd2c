(** from_iterable sources on the current_thread scheduler, subscribed together by an
    operator that owns the thread's queue meanwhile.
    /repo/src/rpp/rpp/sources/from.hpp:47-77, 118-122;
    /repo/src/rpp/rpp/observables/details/chain_strategy.hpp:46-65 (own_current_queue),
    /repo/src/rpp/rpp/operators/merge.hpp:165-190 (merge_with). *)
From Verif Require Import Base SchedSpec SchedModel MultiSpec FairSpec.
Open Scope nat_scope.

(** from.hpp:47-77: what run number r of the task of a container of n elements returns. *)
Definition from_result (n r : nat) : sres := if S r <? n then RAgain 0%Z else RStop.
(** What it pushes into its observer. *)
Definition from_events {V} (xs : list V) (r : nat) : list (ev V) :=
  match nth_error xs r with
  | Some v => Next v :: (if S r <? length xs then [] else [Done])
  | None => [Done]
  end.

(** Task i belongs to source i and has the observer of source i as its handler. *)
Definition from_beh (lens : list nat) (c r : nat) : list act * sres := ([], from_result (nth c lens 0) r).

(** The subscription: the queue is owned, every source is subscribed (from.hpp:120-121:
    worker.schedule without delay), then the queue is drained. *)
Definition subscribe_all (lens : list nat) : list act :=
  [AGuard (map (fun i => ASched CT 0%Z i i) (seq 0 (length lens)))].

(** What the sources have pushed into the operator, with the number of the source. *)
Fixpoint pushed_from {V} (ls : list (list V)) (count : nat -> nat) (st : list nat) : list (nat * ev V) :=
  match st with
  | [] => []
  | i :: r => map (pair i) (from_events (nth i ls []) (count i)) ++
              pushed_from ls (fun j => if j =? i then S (count j) else count j) r
  end.
Definition pushed {V} (ls : list (list V)) (tr : list tev) : list (nat * ev V) := pushed_from ls (fun _ => 0) (starts tr).

(** The calls merge_with makes and receives: the sources are handed to the outer strategy
    one after the other and it completes (merge.hpp:174-176), all before the queue is
    drained; source i of the queue is inner observable number S i. *)
Definition inner {V} (e : ev V) : ev (unit + V) :=
  match e with Next v => Next (inr v) | Err x => Err x | Done => Done end.
Definition merge_calls {V} (ls : list (list V)) (tr : list tev) : hist (unit + V) :=
  repeat (0, Next (inl tt)) (length ls) ++ [(0, Done)] ++
  map (fun x => (S (fst x), inner (snd x))) (pushed ls tr).

(** zip, combine_latest (combining_strategy.hpp:96-120) and with_latest_from
    (with_latest_from.hpp:144-167): the other observables, numbers 1, 2, ..., are
    subscribed while the operator is lifted, the main one, number 0, after that. *)
Definition lifted {V} (n : nat) (h : hist V) : hist V :=
  map (fun x => (if S (fst x) <? n then S (fst x) else 0, snd x)) h.
Definition lifted_calls {V} (main : list V) (others : list (list V)) (tr : list tev) : hist V :=
  lifted (S (length others)) (pushed (others ++ [main]) tr).

(** Executions with the number of steps the subscribing thread has made. *)
Inductive counted kind beh onerr (c0 : config) : nat -> list tev -> config -> Prop :=
| CtNil : counted kind beh onerr c0 0 [] c0
| CtRun : forall n tr s it rest s' its ls, counted kind beh onerr c0 n tr (s, it :: rest) ->
    tstep kind beh onerr s it = (s', its, ls) ->
    counted kind beh onerr c0 (S n) (tr ++ map (pair (s_clock s)) ls) (s', its ++ rest)
| CtTick : forall n tr s stk dt, counted kind beh onerr c0 n tr (s, stk) -> (0 <= dt)%Z ->
    counted kind beh onerr c0 n tr (set_clock s (s_clock s + dt)%Z, stk)
| CtEnv : forall n tr s stk h, counted kind beh onerr c0 n tr (s, stk) ->
    counted kind beh onerr c0 n (tr ++ [(s_clock s, EEnv h)]) (State (s_clock s) (s_last s) (s_queue s) (h :: s_dead s) (s_next s), stk).
