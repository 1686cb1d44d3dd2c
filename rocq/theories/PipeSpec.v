(** Pipelines that change threads on the way (C86): chains of operators with delay / observe_on
    between them have to show what the same operators show without the hops. *)
From Verif Require Import Base OpsSpec ChainSpec TreeSpec.
Open Scope nat_scope.

Section Spec.
  Context {V : Type}.
  (** The chains one after the other, nothing in between. *)
  Fixpoint after_chain {A B} (c : chain A B) : forall C, chain B C -> chain A C :=
    match c in chain A B return forall C, chain B C -> chain A C with
    | ChNil _ => fun _ d => d
    | ChCons _ _ _ o r => fun C d => ChCons _ _ _ o (after_chain r C d)
    end.
  Fixpoint whole (segs : list (chain V V)) : chain V V :=
    match segs with
    | [] => ChNil V
    | c :: r => after_chain c V (whole r)
    end.
  Definition result (segs : list (chain V V)) (src : list (ev V)) : list (ev V) := heard (chain_spec (whole segs) src).
  (** What arrives at the i-th hop when all goes well. *)
  Definition arrives (segs : list (chain V V)) (i : nat) (src : list (ev V)) : list (ev V) := result (firstn i segs) src.
End Spec.
