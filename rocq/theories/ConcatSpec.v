(** What concat has to do, as a function of a history (see MultiSpec.v).  Source 0 sends
    observables, the j-th one is source j. *)
From Verif Require Import Base MultiSpec.

(** Observables that have completed. *)
Definition ndone {V} (h : hist (unit + V)) : nat := length (filter (fun j => completed j h) (seq 1 (opened h))).

(** Only the first observable that has not completed counts. *)
Definition concat_out {V} (past : hist (unit + V)) (i : nat) (e : ev (unit + V)) : list (ev V) :=
  if i =? 0 then
    match e with
    | Next _ => []
    | Err x => [Err x]
    | Done => if ndone past =? opened past then [Done] else []
    end
  else if (i =? S (ndone past)) && (i <=? opened past) then
    match e with
    | Next (inr v) => [Next v]
    | Next (inl _) => []
    | Err x => [Err x]
    | Done => if completed 0 past && (i =? opened past) then [Done] else []
    end
  else [].
