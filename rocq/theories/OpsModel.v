(** Single-source operators, function by function.
    All files in /repo/src/rpp/rpp/operators.  Each strategy's set_upstream and
    is_disposed just forward to the downstream observer (see Machine.lift). *)
From Verif Require Import Base Machine.

Definition no_start {B} (D : machine B) (d : mst D) : mst D := d.

(** on_error of every strategy below: observer.on_error(err) (e.g. map.hpp:36). *)
Definition fwd_err {B S} (D : machine B) (s : S) (d : mst D) (e : exn) : S * mst D :=
  (s, mstep D d (Err e)).
(** on_completed of most strategies: observer.on_completed() (e.g. map.hpp:38). *)
Definition fwd_done {B S} (D : machine B) (s : S) (d : mst D) : S * mst D :=
  (s, mstep D d Done).

(** map.hpp:30-34: observer.on_next(fn(v)). *)
Definition map_op {A B} (f : A -> res B) : operator A B :=
  Operator A B unit tt no_start
    (fun D s d v => match f v with
                    | Ok b => (s, mstep D d (Next b), None)
                    | Throw e => (s, d, Some e)
                    end)
    fwd_err fwd_done.

(** filter.hpp:30-35. *)
Definition filter_op {A} (p : A -> res bool) : operator A A :=
  Operator A A unit tt no_start
    (fun D s d v => match p v with
                    | Ok true => (s, mstep D d (Next v), None)
                    | Ok false => (s, d, None)
                    | Throw e => (s, d, Some e)
                    end)
    fwd_err fwd_done.

(** take.hpp:30-41. *)
Definition take_op {A} (n : nat) : operator A A :=
  Operator A A nat n no_start
    (fun D count d v =>
       let '(count, d) := if 0 <? count then (count - 1, mstep D d (Next v)) else (count, d) in
       let d := if count =? 0 then mstep D d Done else d in
       (count, d, None))
    fwd_err fwd_done.

(** skip.hpp:30-37. *)
Definition skip_op {A} (n : nat) : operator A A :=
  Operator A A nat n no_start
    (fun D count d v =>
       if count =? 0 then (count, mstep D d (Next v), None) else (count - 1, d, None))
    fwd_err fwd_done.

(** element_at.hpp:31-58; the strategy is constructed with count = index + 1
    (element_at.hpp, element_at(size_t index): details::element_at_t{index + 1}).
    [oor] is the out_of_range exception.  Simplification: index + 1 does not wrap. *)
Definition element_at_op {A} (oor : exn) (index : nat) : operator A A :=
  Operator A A nat (index + 1) no_start
    (fun D count d v =>
       let count := if 0 <? count then count - 1 else count in
       if count =? 0 then (count, mstep D (mstep D d (Next v)) Done, None)
       else (count, d, None))
    fwd_err
    (fun D count d =>
       if 0 <? count then (count, mstep D d (Err oor)) else (count, mstep D d Done)).

(** first.hpp:27-37.  [nee] is the not_enough_emissions exception. *)
Definition first_op {A} (nee : exn) : operator A A :=
  Operator A A unit tt no_start
    (fun D s d v => (s, mstep D (mstep D d (Next v)) Done, None))
    fwd_err
    (fun D s d => (s, mstep D d (Err nee))).

(** last.hpp:30-45. *)
Definition last_op {A} (nee : exn) : operator A A :=
  Operator A A (option A) None no_start
    (fun D s d v => (Some v, d, None))
    fwd_err
    (fun D s d => match s with
                  | Some v => (s, mstep D (mstep D d (Next v)) Done)
                  | None => (s, mstep D d (Err nee))
                  end).

(** take_while.hpp:28-35. *)
Definition take_while_op {A} (p : A -> res bool) : operator A A :=
  Operator A A unit tt no_start
    (fun D s d v => match p v with
                    | Ok true => (s, mstep D d (Next v), None)
                    | Ok false => (s, mstep D d Done, None)
                    | Throw e => (s, d, Some e)
                    end)
    fwd_err fwd_done.

(** take_last.hpp:21-81.  m_data is the vector, [tl_end] = m_current_end, [cap] =
    m_data.capacity() after reserve(count) in the constructor (28-32).
    The C++ standard only promises capacity >= count, so the capacity is a parameter.
    Simplification: moved-from slots keep their value in the model (every slot is
    moved from at most once, in the final loop). *)
Record tl_state (A : Type) := TL { tl_data : list A; tl_end : nat }.
Arguments TL {A} tl_data tl_end.
Arguments tl_data {A} t.
Arguments tl_end {A} t.

(** take_last.hpp:71-74 get_next. *)
Definition tl_next (size pos : nat) : nat := if size <=? pos + 1 then 0 else pos + 1.

(** vector element assignment m_data[i] = v. *)
Fixpoint set_nth {A} (l : list A) (i : nat) (v : A) : list A :=
  match l, i with
  | [], _ => []
  | _ :: r, 0 => v :: r
  | x :: r, S j => x :: set_nth r j v
  end.

(** take_last.hpp:57-61, the loop of on_completed; [n] = remaining iterations. *)
Fixpoint tl_flush {A} (D : machine A) (data : list A) (n pos : nat) (d : mst D) : nat * mst D :=
  match n with
  | 0 => (pos, d)
  | S k => let d := match nth_error data pos with
                    | Some v => mstep D d (Next v)
                    | None => d    (* out of range: shown unreachable *)
                    end in
           tl_flush D data k (tl_next (length data) pos) d
  end.

Definition take_last_op {A} (cap : nat) : operator A A :=
  Operator A A (tl_state A) (TL [] 0) no_start
    (fun D s d v =>
       if cap =? 0 then (s, d, None)
       else if length (tl_data s) <? cap then (TL (tl_data s ++ [v]) (tl_end s), d, None)
       else (TL (set_nth (tl_data s) (tl_end s) v)
                (tl_next (length (tl_data s)) (tl_end s)), d, None))
    fwd_err
    (fun D s d =>
       let '(pos, d) := tl_flush D (tl_data s) (length (tl_data s)) (tl_end s) d in
       (TL (tl_data s) pos, mstep D d Done)).

(** distinct.hpp:31-39.  [eqb] is the element equality used by std::unordered_set
    (simplification: a lawful hash, so the set behaves as a set of values). *)
Definition distinct_op {A} (eqb : A -> A -> bool) : operator A A :=
  Operator A A (list A) [] no_start
    (fun D seen d v =>
       if existsb (eqb v) seen then (seen, d, None)
       else (v :: seen, mstep D d (Next v), None))
    fwd_err fwd_done.

(** distinct_until_changed.hpp:31-39. *)
Definition duc_op {A} (cmp : A -> A -> res bool) : operator A A :=
  Operator A A (option A) None no_start
    (fun D s d v =>
       match s with
       | Some l => match cmp l v with
                   | Ok true => (s, d, None)
                   | Ok false => (Some v, mstep D d (Next v), None)
                   | Throw e => (s, d, Some e)
                   end
       | None => (Some v, mstep D d (Next v), None)
       end)
    fwd_err fwd_done.

(** scan.hpp:23-49 (with seed; the seed is emitted during construction, 32-33).
    Simplification: [seed] is left unchanged when fn throws (C++: moved-from), it is
    never read again because the downstream is then terminated. *)
Definition scan_op {A B} (f : B -> A -> res B) (seed : B) : operator A B :=
  Operator A B B seed
    (fun D d => mstep D d (Next seed))
    (fun D s d v => match f s v with
                    | Ok s' => (s', mstep D d (Next s'), None)
                    | Throw e => (s, d, Some e)
                    end)
    fwd_err fwd_done.

(** scan.hpp:71-100 (without seed). *)
Definition scan1_op {A} (f : A -> A -> res A) : operator A A :=
  Operator A A (option A) None no_start
    (fun D s d v => match s with
                    | Some a => match f a v with
                                | Ok s' => (Some s', mstep D d (Next s'), None)
                                | Throw e => (s, d, Some e)
                                end
                    | None => (Some v, mstep D d (Next v), None)
                    end)
    fwd_err fwd_done.

(** reduce.hpp:20-47 (with seed). *)
Definition reduce_op {A B} (f : B -> A -> res B) (seed : B) : operator A B :=
  Operator A B B seed no_start
    (fun D s d v => match f s v with
                    | Ok s' => (s', d, None)
                    | Throw e => (s, d, Some e)
                    end)
    fwd_err
    (fun D s d => (s, mstep D (mstep D d (Next s)) Done)).

(** reduce.hpp:69-100 (without seed). *)
Definition reduce1_op {A} (f : A -> A -> res A) : operator A A :=
  Operator A A (option A) None no_start
    (fun D s d v => match s with
                    | Some a => match f a v with
                                | Ok s' => (Some s', d, None)
                                | Throw e => (s, d, Some e)
                                end
                    | None => (Some v, d, None)
                    end)
    fwd_err
    (fun D s d =>
       let d := match s with Some a => mstep D d (Next a) | None => d end in
       (s, mstep D d Done)).

(** buffer.hpp:32-59.  [cap] = m_bucket.capacity() after
    reserve(max(1,count)) (35); assumed the same after clear()+reserve(capacity) (47-48). *)
Definition buffer_op {A} (cap : nat) : operator A (list A) :=
  Operator A (list A) (list A) [] no_start
    (fun D b d v =>
       let b := b ++ [v] in
       if length b =? cap then ([], mstep D d (Next b), None) else (b, d, None))
    fwd_err
    (fun D b d =>
       let d := match b with [] => d | _ => mstep D d (Next b) end in
       (b, mstep D d Done)).

(** tap.hpp:34-51.  The state records the callback invocations.  Simplification:
    onError/onCompleted callbacks do not throw (that would be std::terminate). *)
Definition tap_op {A} (f : A -> res unit) : operator A A :=
  Operator A A (list (ev A)) [] no_start
    (fun D log d v => match f v with
                      | Ok _ => (log ++ [Next v], mstep D d (Next v), None)
                      | Throw e => (log ++ [Next v], d, Some e)
                      end)
    (fun D log d e => (log ++ [Err e], mstep D d (Err e)))
    (fun D log d => (log ++ [Done], mstep D d Done)).

(** throttle.hpp:33-42.  Each value comes with the clock reading made when it arrives. *)
Definition throttle_op {A} (dur : nat) : operator (nat * A) A :=
  Operator (nat * A) A (option nat) None no_start
    (fun D last d tv =>
       let '(now, v) := tv in
       if match last with None => true | Some l => l + dur <=? now end
       then (Some now, mstep D d (Next v), None)
       else (last, d, None))
    fwd_err fwd_done.

(** std::vector::reserve on an empty vector: the resulting capacity.  libstdc++/libc++
    vector<T>: exactly n; vector<bool>: rounded up to whole 64-bit words. *)
Definition reserve_exact (n : nat) : nat := n.
Definition reserve_vector_bool (n : nat) : nat := ((n + 63) / 64) * 64.

(** take_last.hpp:28-32 and buffer.hpp:32-36 with the container's reserve policy. *)
Definition take_last_cap (reserve : nat -> nat) (count : nat) : nat := reserve count.
Definition buffer_cap (reserve : nat -> nat) (count : nat) : nat := reserve (Nat.max 1 count).
