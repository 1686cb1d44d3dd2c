(** Emitting into a publish_subject from inside its subscribers' callbacks (C79):
    vocabulary of the claims. *)
From Verif Require Import Base.

Inductive nact (V : Type) :=
| NPush (e : ev V)   (* the subject's observer is called: from outside, or from inside the
                        on_next callback that began last *)
| NReturn            (* the on_next callback that began last returns *)
| NStop (i : nat).   (* the subscription of observer i is disposed *)
Arguments NPush {V} e.
Arguments NReturn {V}.
Arguments NStop {V} i.

(** Events pushed, in the order in which the calls began. *)
Definition npushed {V} (tr : list (nact V)) : list (ev V) :=
  flat_map (fun a => match a with NPush e => [e] | _ => [] end) tr.
(** What observer i has got. *)
Definition got {V} (i : nat) (log : list (nat * ev V)) : list (ev V) :=
  flat_map (fun x => if fst x =? i then [snd x] else []) log.
(** The events up to the first terminal one. *)
Fixpoint until_end {V} (l : list (ev V)) : list (ev V) :=
  match l with
  | [] => []
  | Next v :: r => Next v :: until_end r
  | e :: _ => [e]
  end.
(** How many on_next callbacks have begun, and how many have returned. *)
Definition begun {V} (log : list (nat * ev V)) : nat := length (filter (fun x => negb (is_term (snd x))) log).
Definition returned {V} (tr : list (nact V)) : nat := length (filter (fun a => match a with NReturn => true | _ => false end) tr).
