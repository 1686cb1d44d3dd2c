(** Several from/just sources subscribed together (C81): vocabulary of the claims. *)
From Verif Require Import Base SchedSpec MultiSpec.
Open Scope nat_scope.

(** How many times the task of source i has been started. *)
Definition runs (tr : list tev) (i : nat) : nat :=
  length (filter (fun e => match snd e with EStart _ j => j =? i | _ => false end) tr).
(** The starts, in order. *)
Definition starts (tr : list tev) : list nat :=
  flat_map (fun e => match snd e with EStart _ j => [j] | _ => [] end) tr.

(** A source with n values needs n runs; an empty one needs one run, to complete. *)
Definition needs (n : nat) : nat := Nat.max 1 n.

(** Round by round: in round r every source that still needs it, in order of subscription. *)
Definition rounds (lens : list nat) : list nat :=
  flat_map (fun r => filter (fun i => r <? needs (nth i lens 0)) (seq 0 (length lens)))
           (seq 0 (list_max (map needs lens))).

(** The values of all lists, round by round. *)
Definition interleaved {V} (ls : list (list V)) : list V :=
  flat_map (fun r => flat_map (fun l => match nth_error l r with Some v => [v] | None => [] end) ls)
           (seq 0 (list_max (map (@length V) ls))).

(** Row k: the k-th values of all lists, if all have one. *)
Definition zipped_rows {V} (ls : list (list V)) : list (list V) :=
  flat_map (fun k => match all_of (map (fun l => nth_error l k) ls) with Some r => [r] | None => [] end)
           (seq 0 (list_max (map (@length V) ls))).

(** What a list has sent at most after r+1 rounds. *)
Definition last_upto {V} (l : list V) (r : nat) : option V := nth_error l (Nat.min r (length l - 1)).
(** Each value of the main list with the values the other lists have reached by then. *)
Definition sampled {V B} (f : V -> list V -> res B) (main : list V) (others : list (list V)) : list (ev B) :=
  flat_map (fun r => match nth_error main r, all_of (map (fun l => last_upto l r) others) with
                     | Some v, Some l => of_res (f v l)
                     | _, _ => []
                     end) (seq 0 (length main)).
