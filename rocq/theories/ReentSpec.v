(** Re-entrant emission (C78): vocabulary of the claims, independent of the model.
    An execution is the list of what user code does, in real time. *)
From Verif Require Import Base.

Inductive act (A : Type) :=
| APush (e : ev A)   (* user code calls on_next/on_error/on_completed of the source:
                        either nothing is running, or it does so from inside the
                        on_next callback that began last *)
| AReturn            (* the on_next callback that began last returns *)
| AStop.             (* the subscription is disposed *)
Arguments APush {A} e.
Arguments AReturn {A}.
Arguments AStop {A}.

(** The events pushed into the source, in the order the calls began. *)
Fixpoint pushed {A} (tr : list (act A)) : list (ev A) :=
  match tr with
  | [] => []
  | APush e :: r => e :: pushed r
  | _ :: r => pushed r
  end.

(** Everything delivered is what the operator owes for the pushed events, in that
    order; nothing is missing once no callback is running. *)
Definition delivers {A B} (spec : list A -> list (ev B) -> list (ev B)) (tr : list (act A)) (log : list (ev B)) (idle : Prop) : Prop :=
  let owed := spec (vals (pushed tr)) (term_list (pushed tr)) in
  (exists rest, owed = log ++ rest) /\ (~ In AStop tr -> idle -> log = owed).

(** The values among delivered events. *)
Definition values {B} (l : list (ev B)) : list B :=
  flat_map (fun e => match e with Next b => [b] | _ => [] end) l.
