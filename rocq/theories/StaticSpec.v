(** C12: a bounded list. *)
From Verif Require Import Base.

Record bstate := BState { b_elems : list nat; b_disposed : list nat; b_oks : list bool }.

(** The four operations on an ordinary list holding at most [count] elements. *)
Definition b_push (count : nat) (b : bstate) (d : nat) : bstate :=
  if length (b_elems b) <? count then BState (b_elems b ++ [d]) (b_disposed b) (b_oks b ++ [true])
  else BState (b_elems b) (b_disposed b) (b_oks b ++ [false]).
Definition b_remove (b : bstate) (d : nat) : bstate :=
  BState (filter (fun x => negb (x =? d)) (b_elems b)) (b_disposed b) (b_oks b).
Definition b_dispose (b : bstate) : bstate :=
  BState (b_elems b) (b_disposed b ++ b_elems b) (b_oks b).
Definition b_clear (b : bstate) : bstate := BState [] (b_disposed b) (b_oks b).
