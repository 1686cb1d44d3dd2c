(** Observers as machines, lifted operators as machine transformers.
    /repo/src/rpp/rpp/observers/observer.hpp:23-149 (observer_impl),
    /repo/src/rpp/rpp/observables/details/chain_strategy.hpp:46-65 (lift chain). *)
From Verif Require Import Base.

(** The interface every observer offers to its upstream: on_next/on_error/on_completed
    ([mstep]), is_disposed ([mdisp]) and disposal of its subscription ([mkill]). *)
Record machine (V : Type) := Machine {
  mst : Type;
  mstep : mst -> ev V -> mst;
  mdisp : mst -> bool;
  mkill : mst -> mst
}.
Arguments mst {V} m.
Arguments mstep {V} m s e.
Arguments mdisp {V} m s.
Arguments mkill {V} m s.

Definition mrun {V} (M : machine V) (s : mst M) (l : list (ev V)) : mst M :=
  fold_left (mstep M) l s.
Arguments mrun {V} M s l : simpl never.

(** What the library guarantees of every observer (C01): a disposed observer ignores
    events, a terminal event disposes, dispose disposes. *)
Record lawful {V} (M : machine V) : Prop := Lawful {
  law_dead : forall s e, mdisp M s = true -> mstep M s e = s;
  law_term : forall s e, is_term e = true -> mdisp M (mstep M s e) = true;
  law_kill : forall s, mdisp M (mkill M s) = true;
  law_kill_dead : forall s, mdisp M s = true -> mkill M s = s
}.

(** A strategy of a lifted single-source operator (lift_operator,
    operators/details/strategy.hpp:26-54), polymorphic in the downstream observer.
    [op_next] returns the exception that escaped from on_next, if any.  [op_start] is
    what happens during construction (only scan with a seed does something). *)
Record operator (A B : Type) := Operator {
  op_S : Type;
  op_init : op_S;
  op_start : forall D : machine B, mst D -> mst D;
  op_next : forall D : machine B, op_S -> mst D -> A -> op_S * mst D * option exn;
  op_err  : forall D : machine B, op_S -> mst D -> exn -> op_S * mst D;
  op_done : forall D : machine B, op_S -> mst D -> op_S * mst D
}.
Arguments op_S {A B} o.
Arguments op_init {A B} o.
Arguments op_start {A B} o D d.
Arguments op_next {A B} o D s d v.
Arguments op_err {A B} o D s d e.
Arguments op_done {A B} o D s d.

Section Lift.
  Context {A B : Type} (o : operator A B) (D : machine B).

  (** observer_impl::on_error with none_disposable_strategy: observer.hpp:120-129,
      disposable_strategy.hpp:98-105 (is_disposed = strategy.is_disposed =
      downstream.is_disposed; dispose does nothing). *)
  Definition lift_err (sd : op_S o * mst D) (e : exn) : op_S o * mst D :=
    if mdisp D (snd sd) then sd else op_err o D (fst sd) (snd sd) e.

  (** observer.hpp:135-144. *)
  Definition lift_done (sd : op_S o * mst D) : op_S o * mst D :=
    if mdisp D (snd sd) then sd else op_done o D (fst sd) (snd sd).

  (** observer.hpp:84-95, 102-113: try { if !disposed strategy.on_next } catch -> on_error. *)
  Definition lift_next (sd : op_S o * mst D) (v : A) : op_S o * mst D :=
    if mdisp D (snd sd) then sd
    else match op_next o D (fst sd) (snd sd) v with
         | (s', d', None) => (s', d')
         | (s', d', Some e) => lift_err (s', d') e
         end.

  Definition lift_step (sd : op_S o * mst D) (e : ev A) : op_S o * mst D :=
    match e with
    | Next v => lift_next sd v
    | Err x => lift_err sd x
    | Done => lift_done sd
    end.

  (** The operator's observer as a machine: is_disposed and dispose are those of the
      downstream observer (every strategy: is_disposed() { return observer.is_disposed(); },
      set_upstream passes the upstream on to the downstream observer). *)
  Definition lift : machine A :=
    Machine A (op_S o * mst D) lift_step
            (fun sd => mdisp D (snd sd))
            (fun sd => (fst sd, mkill D (snd sd))).

  (** State right after lift (subscription time). *)
  Definition lift_init (d : mst D) : mst lift := (op_init o, op_start o D d).
End Lift.

(** Specification of an operator as a function of its input stream. *)
Definition stream_spec A B := list A -> list (ev B) -> list (ev B).

(** [refines o spec]: whatever downstream observer [D] (any lawful machine: it may
    unsubscribe or end at any moment), whatever its state, and whatever events are
    pushed in (even after a terminal one), the downstream ends in exactly the state it
    would have if it had been given the events [spec (vals evs) (term_list evs)]. *)
Definition refines {A B} (o : operator A B) (spec : stream_spec A B) : Prop :=
  forall (D : machine B), lawful D -> forall (d : mst D) (evs : list (ev A)),
    snd (mrun (lift o D) (lift_init o D d) evs) = mrun D d (spec (vals evs) (term_list evs)).

