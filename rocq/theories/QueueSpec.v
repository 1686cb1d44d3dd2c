(** C13: what a scheduler queue is. *)
From Coq Require Export ZArith.
From Verif Require Import Base.
Open Scope Z_scope.

(** Waiting tasks (due time, task) in order of submission. *)
Definition waiting := list (Z * nat).

(** The earliest due time; among equal ones the first submitted. Returns the task and
    what remains. *)
Fixpoint first_min (w : waiting) : option ((Z * nat) * waiting) :=
  match w with
  | [] => None
  | x :: r =>
      match first_min r with
      | None => Some (x, [])
      | Some (y, r') => if fst y <? fst x then Some (y, x :: r') else Some (x, r)
      end
  end.

Inductive qop :=
| QNew (tp : Z)              (* submit a new task *)
| QAgain (i : nat) (tp : Z)  (* submit again a task taken out before *)
| QPop.

(** Sequential specification: number of tasks created, waiting ones, popped so far.
    None: a call that no scheduler makes (pop of an empty queue, submitting a task that
    is waiting already or does not exist). *)
Definition q_spec1 (st : option (nat * waiting * list nat)) (o : qop) : option (nat * waiting * list nat) :=
  match st with
  | None => None
  | Some (n, w, out) =>
      match o with
      | QNew tp => Some (S n, w ++ [(tp, n)], out)
      | QAgain i tp =>
          if (i <? n)%nat && negb (existsb (fun x => Nat.eqb (snd x) i) w) then Some (n, w ++ [(tp, i)], out) else None
      | QPop => match first_min w with Some ((_, i), w') => Some (n, w', out ++ [i]) | None => None end
      end
  end.
Definition q_spec (ops : list qop) := fold_left q_spec1 ops (Some (O, [], [])).
