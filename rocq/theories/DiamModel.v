(** A publish_subject whose subscribers are the branches of one operator.
    /repo/src/rpp/rpp/subjects/details/subject_state.hpp:112-151: an event is passed to the
    subscribers in the order of their subscription, one after the other.
    Order of subscription: zip, combine_latest and with_latest_from subscribe to their
    arguments while they are lifted, that is before the main observable is subscribed
    (/repo/src/rpp/rpp/operators/details/combining_strategy.hpp:96-120,
    /repo/src/rpp/rpp/operators/with_latest_from.hpp:117-167,
    /repo/src/rpp/rpp/observables/details/chain_strategy.hpp:46-65); take_until too
    (/repo/src/rpp/rpp/operators/take_until.hpp:111-118); merge_with subscribes to the main
    observable first (/repo/src/rpp/rpp/operators/merge.hpp:165-190).
    Simplification: a branch that has unsubscribed still gets the call; it has no effect
    (the operator's downstream is over, see gate in MultiModel.v). *)
From Verif Require Import Base MultiSpec MultiModel FairModel.
Open Scope nat_scope.

Section Model.
  Context {V A : Type} (f : nat -> V -> A).
  (** map.hpp:33-44: values mapped, terminal events passed on. *)
  Definition branch (j : nat) (e : ev V) : ev A :=
    match e with Next v => Next (f j v) | Err x => Err x | Done => Done end.
  (** subject_state.hpp:126-131, 133-151. *)
  Definition told (order : list nat) (e : ev V) : hist A := map (fun j => (j, branch j e)) order.
  Definition shared_calls (order : list nat) (es : list (ev V)) : hist A := flat_map (told order) es.
End Model.

(** combining_strategy.hpp:112-118 (arguments first), with_latest_from.hpp:150-160. *)
Definition arguments_first (n : nat) : list nat := seq 1 n ++ [0].
(** merge.hpp:174-176. *)
Definition main_first (n : nat) : list nat := seq 0 (S n).

(** The merge strategy is given the n + 1 observables and completes, then the subject
    starts (merge.hpp:165-190; inner observable j is source S j). *)
Definition shared_merge {V A} (f : nat -> V -> A) (n : nat) (es : list (ev V)) : hist (unit + A) :=
  repeat (0, Next (inl tt)) (S n) ++ [(0, Done)] ++
  map (fun x => (S (fst x), inner (snd x))) (shared_calls f (main_first n) es).
