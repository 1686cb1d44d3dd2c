(** Chains of operators: observable_chain_strategy::subscribe lifts the observer
    through the operators from the last one to the first one
    (/repo/src/rpp/rpp/observables/details/chain_strategy.hpp:46-65). *)
From Verif Require Import Base Machine OpsModel ObserverModel ChainSpec.

(** Model of each operator (containers with exact reserve). *)
Definition denote {A B} (l : libop A B) : operator A B :=
  match l with
  | LMap _ _ f => map_op f
  | LFilter _ p => filter_op p
  | LTake _ n => take_op n
  | LSkip _ n => skip_op n
  | LElementAt _ x i => element_at_op x i
  | LFirst _ x => first_op x
  | LLast _ x => last_op x
  | LTakeWhile _ p => take_while_op p
  | LTakeLast _ n => take_last_op (take_last_cap reserve_exact n)
  | LDistinct _ eqb _ => distinct_op eqb
  | LDistinctUntilChanged _ c => duc_op c
  | LScan _ _ f s => scan_op f s
  | LScanNoSeed _ f => scan1_op f
  | LReduce _ _ f s => reduce_op f s
  | LReduceNoSeed _ f => reduce1_op f
  | LBuffer _ n => buffer_op (buffer_cap reserve_exact n)
  | LTap _ f => tap_op f
  | LThrottle _ d => throttle_op d
  end.

(** chain_strategy.hpp:46-65: the observer of the whole chain. *)
Fixpoint build {A C} (c : chain A C) : machine C -> machine A :=
  match c in chain A C return machine C -> machine A with
  | ChNil _ => fun D => D
  | ChCons _ _ _ o r => fun D => lift (denote o) (build r D)
  end.

Fixpoint build_init {A C} (c : chain A C) : forall D : machine C, mst D -> mst (build c D) :=
  match c in chain A C return forall D : machine C, mst D -> mst (build c D) with
  | ChNil _ => fun D d => d
  | ChCons _ _ _ o r => fun D d => lift_init (denote o) (build r D) (build_init r D d)
  end.

(** The final observer inside the chain. *)
Fixpoint bottom {A C} (c : chain A C) : forall D : machine C, mst (build c D) -> mst D :=
  match c in chain A C return forall D : machine C, mst (build c D) -> mst D with
  | ChNil _ => fun D d => d
  | ChCons _ _ _ o r => fun D s => bottom r D (snd s)
  end.

(** The user's observer (ObserverModel.v) as a machine. *)
Definition leaf {V} (cb : list (ev V) -> V -> reaction) : machine V :=
  Machine V (ostate V) (o_event cb) o_flag o_dispose.
