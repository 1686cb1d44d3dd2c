(** static_disposables_container<Count>: raw storage, placement construction.
    /repo/src/rpp/rpp/disposables/details/container.hpp:70-160. *)
From Verif Require Import Base.

(** One slot of m_data (158): not constructed, a constructed wrapper, or a constructed
    wrapper that was moved from (empty). *)
Inductive cell := Raw | Live (d : nat) | Moved.

Record cont := Cont { c_data : list cell; c_size : nat }.
Definition cont_init (count : nat) : cont := Cont (repeat Raw count) 0.

(** Outcome of an operation: normal, thrown more_disposables_than_expected, undefined
    behaviour (access outside the storage, use of a slot with no object, construction
    over a living object). *)
Inductive out (A : Type) := Fine (a : A) | Full (a : A) | UB.
Arguments Fine {A} a. Arguments Full {A} a. Arguments UB {A}.

Fixpoint put (l : list cell) (i : nat) (c : cell) : list cell :=
  match l, i with
  | [], _ => []
  | _ :: r, 0 => c :: r
  | x :: r, S j => x :: put r j c
  end.

(** 101-113. *)
Definition c_push (count : nat) (c : cont) (d : nat) : out cont :=
  if count <=? c_size c then Full c
  else match nth_error (c_data c) (c_size c) with
       | Some Raw => Fine (Cont (put (c_data c) (c_size c) (Live d)) (S (c_size c)))
       | _ => UB
       end.

(** 125-126: for j from i+1 to m_size-1, slot j-1 is move-assigned from slot j; [n] is
    the number of remaining iterations. *)
Fixpoint c_shift (l : list cell) (j n : nat) : option (list cell) :=
  match n with
  | 0 => Some l
  | S n' => match nth_error l (j - 1), nth_error l j with
            | Some (Live _ | Moved), Some (Live d) => c_shift (put (put l (j - 1) (Live d)) j Moved) (S j) n'
            | _, _ => None
            end
  end.

(** 115-130; [fuel] bounds the number of outer iterations (m_size + 1 is enough:
    C12 shows that it never runs out; None = UB or out of fuel). *)
Fixpoint c_remove_loop (fuel : nat) (c : cont) (i d : nat) : option cont :=
  match fuel with
  | 0 => None
  | S f =>
      if i <? c_size c then
        match nth_error (c_data c) i with
        | Some (Live e) =>
            if negb (e =? d) then c_remove_loop f c (S i) d
            else match c_shift (c_data c) (i + 1) (c_size c - (i + 1)) with
                 | Some l => match nth_error l (c_size c - 1) with
                             | Some (Live _ | Moved) =>
                                 c_remove_loop f (Cont (put l (c_size c - 1) Raw) (c_size c - 1)) i d
                             | _ => None
                             end
                 | None => None
                 end
        | _ => None
        end
      else Some c
  end.
Definition c_remove (c : cont) (d : nat) : out cont :=
  match c_remove_loop (S (c_size c)) c 0 d with Some c' => Fine c' | None => UB end.

(** 132-138: the disposed children in order. *)
Fixpoint c_dispose_loop (l : list cell) (i n : nat) : option (list nat) :=
  match n with
  | 0 => Some []
  | S n' => match nth_error l i with
            | Some (Live d) => match c_dispose_loop l (S i) n' with Some r => Some (d :: r) | None => None end
            | _ => None
            end
  end.
Definition c_dispose (c : cont) : option (list nat) := c_dispose_loop (c_data c) 0 (c_size c).

(** 140-145. *)
Fixpoint c_clear_loop (l : list cell) (i n : nat) : option (list cell) :=
  match n with
  | 0 => Some l
  | S n' => match nth_error l i with
            | Some (Live _ | Moved) => c_clear_loop (put l i Raw) (S i) n'
            | _ => None
            end
  end.
Definition c_clear (c : cont) : out cont :=
  match c_clear_loop (c_data c) 0 (c_size c) with Some l => Fine (Cont l 0) | None => UB end.

(** 78-89 move assignment: returns (target, source). *)
Fixpoint c_move_loop (t o : list cell) (i n : nat) : option (list cell * list cell) :=
  match n with
  | 0 => Some (t, o)
  | S n' => match nth_error t i, nth_error o i with
            | Some Raw, Some (Live d) => c_move_loop (put t i (Live d)) (put o i Moved) (S i) n'
            | _, _ => None
            end
  end.
Definition c_move (t o : cont) : out (cont * cont) :=
  match c_move_loop (c_data t) (c_data o) 0 (c_size o) with
  | Some (t', o') => match c_clear (Cont o' (c_size o)) with
                     | Fine o'' => Fine (Cont t' (c_size o), o'')
                     | _ => UB
                     end
  | None => UB
  end.

(** A sequence of operations, recording what was disposed and which pushes failed. *)
Inductive cop := CPush (d : nat) | CRemove (d : nat) | CDisposeAll | CClear.
Definition c_op (count : nat) (st : option (cont * list nat * list bool)) (o : cop) :=
  match st with
  | None => None
  | Some (c, disp, oks) =>
      match o with
      | CPush d => match c_push count c d with
                   | Fine c' => Some (c', disp, oks ++ [true])
                   | Full c' => Some (c', disp, oks ++ [false])
                   | UB => None
                   end
      | CRemove d => match c_remove c d with Fine c' => Some (c', disp, oks) | _ => None end
      | CDisposeAll => match c_dispose c with Some l => Some (c, disp ++ l, oks) | None => None end
      | CClear => match c_clear c with Fine c' => Some (c', disp, oks) | _ => None end
      end
  end.
Definition c_run (count : nat) (ops : list cop) := fold_left (c_op count) ops (Some (cont_init count, [], [])).

(** The elements held, in order. *)
Definition c_elems (c : cont) : list nat :=
  flat_map (fun x => match x with Live d => [d] | _ => [] end) (firstn (c_size c) (c_data c)).
