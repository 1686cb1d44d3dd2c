(** C06, C07, C09, C10: what a composite disposable is supposed to be, independent of
    the implementation: a sequential object plus linearizability. *)
From Verif Require Import Base.

(** Operations of a user (or of a child's disposal action) on one composite.
    Children are numbered; [self] is the composite itself. *)
Inductive op :=
| OAdd (d : nat)
| ORemove (d : nat)
| OClear
| ODispose
| OKill (d : nat).   (* somebody disposes the child d directly *)

Definition self : nat := 0.

(** What can be observed of an execution: calls and returns (each call has an own
    number k; the flag of a return tells whether the call succeeded), disposal of a
    child by the composite during call k, disposal of a child by somebody else. *)
Inductive label :=
| LInv (k : nat) (o : op)
| LRet (k : nat) (o : op) (ok : bool)
| LKill (k d : nat)
| LUserKill (d : nat).

(** A trace annotated with linearization points. *)
Inductive aev :=
| AVis (l : label)
| ALin (k : nat) (o : op) (ok : bool).

Fixpoint erase (tr : list aev) : list label :=
  match tr with
  | [] => []
  | AVis l :: r => l :: erase r
  | ALin _ _ _ :: r => erase r
  end.

(** Sequential state: the children in order of addition, whether dispose happened,
    which children each call is responsible for, which children are disposed. *)
Record astate := AState {
  a_kids : list nat;
  a_dead : bool;
  a_owed : list (nat * nat);
  a_gone : list nat
}.
Definition a_init := AState [] false [] [].

Definition room (cap : option nat) (l : list nat) : bool :=
  match cap with None => true | Some c => length l <? c end.

(** Effect of a call at its linearization point. *)
Inductive lin_step (cap : option nat) (k : nat) : op -> bool -> astate -> astate -> Prop :=
| SAddSkip : forall d a, d = self \/ In d (a_gone a) -> lin_step cap k (OAdd d) true a a
| SAddDead : forall d a, a_dead a = true ->
    lin_step cap k (OAdd d) true a (AState (a_kids a) true ((k, d) :: a_owed a) (a_gone a))
| SAddOk : forall d a, a_dead a = false -> d <> self -> room cap (a_kids a) = true ->
    lin_step cap k (OAdd d) true a (AState (a_kids a ++ [d]) false (a_owed a) (a_gone a))
| SAddFull : forall d a, a_dead a = false -> room cap (a_kids a) = false ->
    lin_step cap k (OAdd d) false a a
| SRemove : forall d a, a_dead a = false ->
    lin_step cap k (ORemove d) true a
      (AState (filter (fun x => negb (x =? d)) (a_kids a)) false (a_owed a) (a_gone a))
| SRemoveDead : forall d a, a_dead a = true -> lin_step cap k (ORemove d) true a a
| SClear : forall a, a_dead a = false ->
    lin_step cap k OClear true a
      (AState [] false (map (pair k) (a_kids a) ++ a_owed a) (a_gone a))
| SClearDead : forall a, a_dead a = true -> lin_step cap k OClear true a a
| SDispose : forall a, a_dead a = false ->
    lin_step cap k ODispose true a
      (AState [] true (map (pair k) (a_kids a) ++ a_owed a) (a_gone a))
| SDisposeDead : forall a, a_dead a = true -> lin_step cap k ODispose true a a.

(** The composite disposes only children it owes to dispose, and a call returns only
    after everything it is responsible for is disposed. *)
Inductive spec_step (cap : option nat) : aev -> astate -> astate -> Prop :=
| SLin : forall k o ok a a', lin_step cap k o ok a a' -> spec_step cap (ALin k o ok) a a'
| SInv : forall k o a, spec_step cap (AVis (LInv k o)) a a
| SRet : forall k o ok a, (forall d, In (k, d) (a_owed a) -> In d (a_gone a)) ->
    spec_step cap (AVis (LRet k o ok)) a a
| SKill : forall k d a, In (k, d) (a_owed a) -> ~ In d (a_gone a) ->
    spec_step cap (AVis (LKill k d)) a (AState (a_kids a) (a_dead a) (a_owed a) (d :: a_gone a))
| SUserKill : forall d a, ~ In d (a_gone a) ->
    spec_step cap (AVis (LUserKill d)) a (AState (a_kids a) (a_dead a) (a_owed a) (d :: a_gone a)).

Inductive spec_run (cap : option nat) : astate -> list aev -> astate -> Prop :=
| SRNil : forall a, spec_run cap a [] a
| SRSnoc : forall a tr b e c, spec_run cap a tr b -> spec_step cap e b c -> spec_run cap a (tr ++ [e]) c.

(** Events belonging to call k. *)
Definition of_call (k : nat) (e : aev) : bool :=
  match e with
  | AVis (LInv j _) | AVis (LRet j _ _) | ALin j _ _ => j =? k
  | _ => false
  end.

(** Every call: invocation, then its effect, then its return - each once. *)
Definition call_shape (l : list aev) : Prop :=
  l = [] \/ exists k o ok,
    l = [AVis (LInv k o)] \/ l = [AVis (LInv k o); ALin k o ok]
    \/ l = [AVis (LInv k o); ALin k o ok; AVis (LRet k o ok)].
Definition lin_points_inside (tr : list aev) : Prop :=
  forall k, call_shape (filter (of_call k) tr).

(** Child d has been disposed during the trace. *)
Definition disposed_in (tr : list label) (d : nat) : Prop :=
  (exists k, In (LKill k d) tr) \/ In (LUserKill d) tr.
