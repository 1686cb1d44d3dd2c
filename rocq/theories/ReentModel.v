(** Operators driven re-entrantly (C78): the downstream on_next callback may call the
    source of the operator again before it returns (a subject, or any source that the
    callback can reach).  A strategy's method is a program that stops at every call of
    the downstream's on_next: what follows that call runs only after the callback, and
    everything the callback pushed, is over.  Unlike [Machine.operator], the state a
    method reads after the call is the state at that moment. *)
From Verif Require Import Base OpsModel ReentSpec.

(** A method body: reading and writing the strategy's members, calling the downstream
    observer, letting an exception out, undefined behaviour. *)
Inductive prog (S B : Type) :=
| Ret
| Raise (x : exn)
| Get (k : S -> prog S B)
| Put (s : S) (p : prog S B)
| Emit (e : ev B) (p : prog S B)
| Undef.
Arguments Ret {S B}.
Arguments Raise {S B} x.
Arguments Get {S B} k.
Arguments Put {S B} s p.
Arguments Emit {S B} e p.
Arguments Undef {S B}.

(** A strategy: its members, on_next, on_completed; on_error of every strategy here is
    observer.on_error(err) (see OpsModel.fwd_err).  [ro_start]: values emitted during
    construction (scan with a seed, scan.hpp:32-33), before the source is subscribed to. *)
Record rop (A B : Type) := ROp {
  ro_S : Type;
  ro_init : ro_S;
  ro_start : list B;
  ro_next : A -> prog ro_S B;
  ro_done : prog ro_S B
}.
Arguments ro_S {A B} r.
Arguments ro_init {A B} r.
Arguments ro_start {A B} r.
Arguments ro_next {A B} r v.
Arguments ro_done {A B} r.

Section Run.
  Context {A B : Type} (o : rop A B).

  (** [r_dead]: is_disposed() of the downstream observer, which is is_disposed() of the
      operator's observer too (Machine.lift); [r_over]: the source has called on_error or
      on_completed and calls nothing any more; [r_wait]: what is left to run of the
      methods whose downstream call is running, innermost first; [r_ub]: undefined
      behaviour has happened. *)
  Record rst := RSt { r_s : ro_S o; r_dead : bool; r_over : bool; r_wait : list (prog (ro_S o) B); r_log : list (ev B); r_ub : bool }.

  Definition r_init : rst := RSt (ro_init o) false false [] (map Next (ro_start o)) false.

  (** Run a method until it returns or enters the downstream's on_next callback.
      A disposed downstream observer ignores calls (observer.hpp:87, 105, 122, 137); a
      terminal call disposes it (observer.hpp:125, 140; its callback does not push: the
      case it does is C05); an escaping exception goes to the operator's own on_error
      (observer.hpp:92-94, 110-112), which is ignored if disposed (122). *)
  Fixpoint go (p : prog (ro_S o) B) (st : rst) : rst :=
    match p with
    | Ret => st
    | Raise x => if r_dead st then st
                 else RSt (r_s st) true (r_over st) (r_wait st) (r_log st ++ [Err x]) (r_ub st)
    | Get k => go (k (r_s st)) st
    | Put s q => go q (RSt s (r_dead st) (r_over st) (r_wait st) (r_log st) (r_ub st))
    | Emit (Next b) q =>
        if r_dead st then go q st
        else RSt (r_s st) (r_dead st) (r_over st) (q :: r_wait st) (r_log st ++ [Next b]) (r_ub st)
    | Emit e q =>
        if r_dead st then go q st
        else go q (RSt (r_s st) true (r_over st) (r_wait st) (r_log st ++ [e]) (r_ub st))
    | Undef => RSt (r_s st) (r_dead st) (r_over st) (r_wait st) (r_log st) true
    end.

  (** The method a call runs: observer.hpp:84-144. *)
  Definition method (e : ev A) : prog (ro_S o) B :=
    match e with
    | Next v => ro_next o v
    | Err x => Emit (Err x) Ret
    | Done => ro_done o
    end.

  (** One step of user code; [None]: not possible in this state. *)
  Definition rstep (st : rst) (a : act A) : option rst :=
    match a with
    | APush e =>
        if r_over st then None
        else let st := RSt (r_s st) (r_dead st) (is_term e) (r_wait st) (r_log st) (r_ub st) in
             Some (if r_dead st then st else go (method e) st)
    | AReturn =>
        match r_wait st with
        | [] => None
        | p :: r => Some (go p (RSt (r_s st) (r_dead st) (r_over st) r (r_log st) (r_ub st)))
        end
    | AStop => Some (RSt (r_s st) true (r_over st) (r_wait st) (r_log st) (r_ub st))
    end.

  Fixpoint rruns (st : rst) (tr : list (act A)) : option rst :=
    match tr with
    | [] => Some st
    | a :: r => match rstep st a with Some st' => rruns st' r | None => None end
    end.
  Definition rrun (tr : list (act A)) : option rst := rruns r_init tr.
End Run.
Arguments rst {A B} o.
Arguments RSt {A B o} r_s r_dead r_over r_wait r_log r_ub.
Arguments r_s {A B o} r.
Arguments r_dead {A B o} r.
Arguments r_over {A B o} r.
Arguments r_wait {A B o} r.
Arguments r_log {A B o} r.
Arguments r_ub {A B o} r.

(** on_completed of most strategies: observer.on_completed(). *)
Definition p_done {S B} : prog S B := Emit Done Ret.

(** map.hpp:30-34. *)
Definition map_r {A B} (f : A -> res B) : rop A B :=
  ROp A B unit tt [] (fun v => match f v with Ok b => Emit (Next b) Ret | Throw e => Raise e end) p_done.

(** filter.hpp:30-35. *)
Definition filter_r {A} (p : A -> res bool) : rop A A :=
  ROp A A unit tt []
    (fun v => match p v with Ok true => Emit (Next v) Ret | Ok false => Ret | Throw e => Raise e end) p_done.

(** take.hpp:30-41: --count, observer.on_next(v); then the counter is read again. *)
Definition take_r {A} (n : nat) : rop A A :=
  let last := Get (fun count => if count =? 0 then Emit Done Ret else Ret) in
  ROp A A nat n []
    (fun v => Get (fun count => if 0 <? count then Put (count - 1) (Emit (Next v) last) else last)) p_done.

(** skip.hpp:30-37. *)
Definition skip_r {A} (n : nat) : rop A A :=
  ROp A A nat n []
    (fun v => Get (fun count => if count =? 0 then Emit (Next v) Ret else Put (count - 1) Ret)) p_done.

(** element_at.hpp:33-58 (see OpsModel.element_at_op). *)
Definition element_at_r {A} (oor : exn) (index : nat) : rop A A :=
  ROp A A nat (index + 1) []
    (fun v => Get (fun c => let c := if 0 <? c then c - 1 else c in
                            Put c (if c =? 0 then Emit (Next v) (Emit Done Ret) else Ret)))
    (Get (fun c => if 0 <? c then Emit (Err oor) Ret else Emit Done Ret)).

(** first.hpp:28-37. *)
Definition first_r {A} (nee : exn) : rop A A :=
  ROp A A unit tt [] (fun v => Emit (Next v) (Emit Done Ret)) (Emit (Err nee) Ret).

(** last.hpp:30-45. *)
Definition last_r {A} (nee : exn) : rop A A :=
  ROp A A (option A) None [] (fun v => Put (Some v) Ret)
    (Get (fun s => match s with Some v => Emit (Next v) (Emit Done Ret) | None => Emit (Err nee) Ret end)).

(** take_while.hpp:28-35. *)
Definition take_while_r {A} (p : A -> res bool) : rop A A :=
  ROp A A unit tt []
    (fun v => match p v with Ok true => Emit (Next v) Ret | Ok false => Emit Done Ret | Throw e => Raise e end) p_done.

(** take_last.hpp:34-74 (see OpsModel.take_last_op).  The loop of on_completed (57-61)
    reads the members on every turn; [n] turns are left, [i] is its counter. *)
Fixpoint tl_loop {A} (n i : nat) : prog (tl_state A) A :=
  match n with
  | 0 => Emit Done Ret
  | S k => Get (fun s =>
      if i <? length (tl_data s)
      then match nth_error (tl_data s) (tl_end s) with
           | Some v => Emit (Next v) (Get (fun s => Put (TL (tl_data s) (tl_next (length (tl_data s)) (tl_end s))) (tl_loop k (i + 1))))
           | None => Undef
           end
      else Emit Done Ret)
  end.
Definition take_last_r {A} (cap : nat) : rop A A :=
  ROp A A (tl_state A) (TL [] 0) []
    (fun v => Get (fun s =>
       if cap =? 0 then Ret
       else if length (tl_data s) <? cap then Put (TL (tl_data s ++ [v]) (tl_end s)) Ret
       else Put (TL (set_nth (tl_data s) (tl_end s) v) (tl_next (length (tl_data s)) (tl_end s))) Ret))
    (Get (fun s => tl_loop (length (tl_data s)) 0)).

(** distinct.hpp:31-39. *)
Definition distinct_r {A} (eqb : A -> A -> bool) : rop A A :=
  ROp A A (list A) [] []
    (fun v => Get (fun seen => if existsb (eqb v) seen then Ret else Put (v :: seen) (Emit (Next v) Ret))) p_done.

(** distinct_until_changed.hpp:31-39.  The member is delivered by reference; what the
    callback sees of it after a nested push is the member then. *)
Definition duc_r {A} (cmp : A -> A -> res bool) : rop A A :=
  ROp A A (option A) None []
    (fun v => Get (fun s => match s with
       | Some l => match cmp l v with
                   | Ok true => Ret
                   | Ok false => Put (Some v) (Emit (Next v) Ret)
                   | Throw e => Raise e
                   end
       | None => Put (Some v) (Emit (Next v) Ret)
       end)) p_done.

(** scan.hpp:23-49 (with seed), 71-100 (without). *)
Definition scan_r {A B} (f : B -> A -> res B) (seed : B) : rop A B :=
  ROp A B B seed [seed]
    (fun v => Get (fun s => match f s v with Ok s' => Put s' (Emit (Next s') Ret) | Throw e => Raise e end)) p_done.
Definition scan1_r {A} (f : A -> A -> res A) : rop A A :=
  ROp A A (option A) None []
    (fun v => Get (fun s => match s with
       | Some a => match f a v with Ok s' => Put (Some s') (Emit (Next s') Ret) | Throw e => Raise e end
       | None => Put (Some v) (Emit (Next v) Ret)
       end)) p_done.

(** reduce.hpp:20-47 (with seed), 69-100 (without). *)
Definition reduce_r {A B} (f : B -> A -> res B) (seed : B) : rop A B :=
  ROp A B B seed []
    (fun v => Get (fun s => match f s v with Ok s' => Put s' Ret | Throw e => Raise e end))
    (Get (fun s => Emit (Next s) (Emit Done Ret))).
Definition reduce1_r {A} (f : A -> A -> res A) : rop A A :=
  ROp A A (option A) None []
    (fun v => Get (fun s => match s with
       | Some a => match f a v with Ok s' => Put (Some s') Ret | Throw e => Raise e end
       | None => Put (Some v) Ret
       end))
    (Get (fun s => match s with Some a => Emit (Next a) (Emit Done Ret) | None => Emit Done Ret end)).

(** throttle.hpp:33-42: the time of the last emission is stored after the downstream
    call.  Each value comes with the clock reading made when it arrives. *)
Definition throttle_r {A} (dur : nat) : rop (nat * A) A :=
  ROp (nat * A) A (option nat) None []
    (fun tv => let '(now, v) := tv in
       Get (fun last => if match last with None => true | Some l => l + dur <=? now end
                        then Emit (Next v) (Put (Some now) Ret)
                        else Ret)) p_done.

(** buffer.hpp:38-59.  Members: the bucket and its capacity.  [takes]: the downstream
    observer moves the vector out of the reference it is given (a callback with a
    by-value parameter) before it does anything else; otherwise (const reference) the
    bucket still holds the values while the callback runs.  A moved-from vector has
    neither values nor capacity; push_back into a full vector grows it to
    max(1, 2*capacity) (libstdc++, libc++); clear() keeps the capacity and reserve never
    shrinks it. *)
Record bucket (A : Type) := Bucket { b_vals : list A; b_cap : nat }.
Arguments Bucket {A} b_vals b_cap.
Arguments b_vals {A} b.
Arguments b_cap {A} b.
Definition push_back {A} (b : bucket A) (v : A) : bucket A :=
  Bucket (b_vals b ++ [v]) (if length (b_vals b) =? b_cap b then Nat.max 1 (2 * b_cap b) else b_cap b).
Definition buffer_r {A} (takes : bool) (count : nat) : rop A (list A) :=
  let hand_over (b : bucket A) := if takes then Bucket [] 0 else b in
  ROp A (list A) (bucket A) (Bucket [] (Nat.max 1 count)) []
    (fun v => Get (fun b =>
       let b := push_back b v in
       if length (b_vals b) =? b_cap b
       then Put (hand_over b) (Emit (Next (b_vals b)) (Get (fun b' => Put (Bucket [] (Nat.max (b_cap b') (b_cap b))) Ret)))
       else Put b Ret))
    (Get (fun b => match b_vals b with
                   | [] => Emit Done Ret
                   | l => Put (hand_over b) (Emit (Next l) (Emit Done Ret))
                   end)).

(** window.hpp:49-86.  What the user sees: windows being opened, values and completions
    arriving at the subscriber of a window (who subscribes when it is opened). *)
Inductive wev (V : Type) := WOpen (w : nat) | WVal (w : nat) (v : V) | WClose (w : nat).
Arguments WOpen {V} w.
Arguments WVal {V} w v.
Arguments WClose {V} w.
(** m_subject_data (the open window), m_items_in_current_window, and how many windows
    have been made (their names). *)
Record wstate := WState { w_cur : option nat; w_items : nat; w_made : nat }.
Definition window_r {V} (count : nat) : rop V (wev V) :=
  let size := Nat.max 1 count in
  let tail v := Get (fun s =>
    match w_cur s with
    | None => Undef          (* m_subject_data-> on an empty optional, 61 *)
    | Some w => Emit (Next (WVal w v)) (Get (fun s =>
        let s := WState (w_cur s) (w_items s + 1) (w_made s) in
        Put s (if w_items s =? size
               then match w_cur s with
                    | None => Undef   (* 66 *)
                    | Some w => Emit (Next (WClose w)) (Get (fun s => Put (WState None (w_items s) (w_made s)) Ret))
                    end
               else Ret)))
    end) in
  ROp V (wev V) wstate (WState None size 0) []
    (fun v => Get (fun s =>
       if w_items s =? size
       then Put (WState (Some (w_made s)) (w_items s) (w_made s + 1))
              (Emit (Next (WOpen (w_made s)))
                 (Get (fun s => Put (WState (w_cur s) 0 (w_made s)) (tail v))))
       else tail v))
    (Get (fun s => match w_cur s with
                   | Some w => Emit (Next (WClose w)) (Emit Done Ret)
                   | None => Emit Done Ret
                   end)).

(** group_by.hpp:88-129: the group enters the map only after the downstream call that
    announces it; emplace does nothing if the key is there by then.  Keys and values are
    already selected; the subscriber of a group subscribes when it is announced. *)
Inductive gev (K V : Type) := GOpen (k : K) (g : nat) | GVal (g : nat) (v : V) | GClose (g : nat).
Arguments GOpen {K V} k g.
Arguments GVal {K V} g v.
Arguments GClose {K V} g.
Record gstate (K : Type) := GState { g_map : list (K * nat); g_made : nat }.
Arguments GState {K} g_map g_made.
Arguments g_map {K} g.
Arguments g_made {K} g.
Definition g_find {K} (eqb : K -> K -> bool) (k : K) (m : list (K * nat)) : option nat :=
  match find (fun e => eqb (fst e) k) m with Some (_, g) => Some g | None => None end.
Fixpoint g_close {K V} (l : list (K * nat)) : prog (gstate K) (gev K V) :=
  match l with
  | [] => Emit Done Ret
  | (_, g) :: r => Emit (Next (GClose g)) (g_close r)
  end.
Definition group_by_r {K V} (eqb : K -> K -> bool) : rop (K * V) (gev K V) :=
  ROp (K * V) (gev K V) (gstate K) (GState [] 0) []
    (fun kv => let '(k, v) := kv in
       Get (fun s => match g_find eqb k (g_map s) with
         | Some g => Emit (Next (GVal g v)) Ret
         | None =>
             let g := g_made s in
             Put (GState (g_map s) (g + 1))
               (Emit (Next (GOpen k g))
                  (Get (fun s => match g_find eqb k (g_map s) with
                     | Some g' => Emit (Next (GVal g' v)) Ret
                     | None => Put (GState (g_map s ++ [(k, g)]) (g_made s)) (Emit (Next (GVal g v)) Ret)
                     end)))
         end))
    (Get (fun s => g_close (g_map s))).
