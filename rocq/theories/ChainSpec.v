(** What a chain of operators means: composition of the operators' list functions. *)
From Verif Require Import Base OpsSpec.

(** Executable form of buffer: chunks of n, remainder at completion. [b] = carried part. *)
Fixpoint buffer_fun {A} (n : nat) (b : list A) (vs : list A) (t : list (ev (list A))) : list (ev (list A)) :=
  match vs with
  | [] => match t with
          | [Done] => (match b with [] => [] | _ => [Next b] end) ++ [Done]
          | _ => t
          end
  | v :: r => if length (b ++ [v]) =? n then Next (b ++ [v]) :: buffer_fun n [] r t
              else buffer_fun n (b ++ [v]) r t
  end.

(** What passes a tap whose callback may throw. *)
Fixpoint tap_spec {A} (f : A -> res unit) (vs : list A) (t : list (ev A)) : list (ev A) :=
  match vs with
  | [] => t
  | v :: r => match f v with Ok _ => Next v :: tap_spec f r t | Throw e => [Err e] end
  end.

(** What tap's own callbacks see: every event handed to it; if its on_next callback
    throws e, then its on_error callback is called with e. *)
Fixpoint tap_seen {A} (f : A -> res unit) (vs : list A) (t : list (ev A)) : list (ev A) :=
  match vs with
  | [] => t
  | v :: r => Next v :: match f v with Ok _ => tap_seen f r t | Throw e => [Err e] end
  end.

(** The modelled single-source operators. *)
Inductive libop : Type -> Type -> Type :=
| LMap : forall A B, (A -> res B) -> libop A B
| LFilter : forall A, (A -> res bool) -> libop A A
| LTake : forall A, nat -> libop A A
| LSkip : forall A, nat -> libop A A
| LElementAt : forall A, exn -> nat -> libop A A
| LFirst : forall A, exn -> libop A A
| LLast : forall A, exn -> libop A A
| LTakeWhile : forall A, (A -> res bool) -> libop A A
| LTakeLast : forall A, nat -> libop A A
| LDistinct : forall A (eqb : A -> A -> bool), (forall x y, eqb x y = true <-> x = y) -> libop A A
| LDistinctUntilChanged : forall A, (A -> A -> res bool) -> libop A A
| LScan : forall A B, (B -> A -> res B) -> B -> libop A B
| LScanNoSeed : forall A, (A -> A -> res A) -> libop A A
| LReduce : forall A B, (B -> A -> res B) -> B -> libop A B
| LReduceNoSeed : forall A, (A -> A -> res A) -> libop A A
| LBuffer : forall A, nat -> libop A (list A)
| LTap : forall A, (A -> res unit) -> libop A A
| LThrottle : forall A, nat -> libop (nat * A) A.

Inductive chain : Type -> Type -> Type :=
| ChNil : forall A, chain A A
| ChCons : forall A B C, libop A B -> chain B C -> chain A C.

(** The meaning of one operator: a function of the values and the terminal part. *)
Definition op_spec {A B} (l : libop A B) : list A -> list (ev B) -> list (ev B) :=
  match l with
  | LMap _ _ f => map_spec f
  | LFilter _ p => filter_spec p
  | LTake _ n => take_spec n
  | LSkip _ n => skip_spec n
  | LElementAt _ x i => element_at_spec x i
  | LFirst _ x => first_spec x
  | LLast _ x => last_spec x
  | LTakeWhile _ p => take_while_spec p
  | LTakeLast _ n => take_last_spec n
  | LDistinct _ eqb _ => distinct_spec eqb
  | LDistinctUntilChanged _ c => duc_spec c
  | LScan _ _ f s => scan_spec f s
  | LScanNoSeed _ f => scan1_spec f
  | LReduce _ _ f s => reduce_spec f s
  | LReduceNoSeed _ f => reduce1_spec f
  | LBuffer _ n => buffer_fun (Nat.max 1 n) []
  | LTap _ f => tap_spec f
  | LThrottle _ d => throttle_spec d
  end.

(** The meaning of a chain: composition, source side first. *)
Fixpoint chain_spec {A C} (c : chain A C) : list (ev A) -> list (ev C) :=
  match c in chain A C return list (ev A) -> list (ev C) with
  | ChNil _ => fun evs => evs
  | ChCons _ _ _ o r => fun evs => chain_spec r (op_spec o (vals evs) (term_list evs))
  end.
