(** Operators with the protocol of is_inside_drain: /repo/src/rpp/rpp/operators/retry.hpp,
    retry_when.hpp, /repo/src/rpp/rpp/sources/concat.hpp (repeat.hpp, start_with.hpp).
    Any number of threads: attempt k may emit from thread k; the downstream observer may be
    disposed from outside at any moment. *)
From Verif Require Import Base Machine Concur ResubSpec.

(** What an event of the current attempt leads to: a call of the downstream observer, a
    terminal call of it, a new round, nothing.  The last three set locally_disposed except RNone. *)
Inductive ract (V : Type) := RNext (v : V) | REnd (e : ev V) | RAgain | RNone.
Arguments RNext {V} v.
Arguments REnd {V} e.
Arguments RAgain {V}.
Arguments RNone {V}.

Record rop (E V : Type) := ROp {
  rx : Type;                            (* what the operator remembers *)
  rpre : rx -> rx * option (ev V);      (* the beginning of the loop's body *)
  ron : rx -> E -> rx * ract V          (* the strategy's on_next, on_error, on_completed *)
}.
Arguments rx {E V} r.
Arguments rpre {E V} r _.
Arguments ron {E V} r _ _.

Section Resub.
  Context {E V : Type} (o : rop E V) (D : machine V) (script : list (attempt E)).
  (** Attempts beyond the script do nothing. *)
  Definition att (k : nat) : attempt E := nth k script (Calls [] []).

  Record rst := RS {
    r_x : rx o;
    r_in : bool;                  (* is_inside_drain *)
    r_k : nat;                    (* attempts begun *)
    r_spawned : nat -> bool;      (* attempt k's thread has been started *)
    r_fin : nat -> bool;          (* attempt k's observer: locally_disposed *)
    r_syn : nat -> list E;        (* what it is still to emit during subscribe(), *)
    r_asy : nat -> list E;        (* and later *)
    r_held : list nat;            (* resources added to state->disposable and not cleared *)
    r_d : mst D                   (* the downstream observer; state->disposable is its upstream
                                     and therefore disposed exactly when it is *)
  }.
  Inductive ritem :=
  | IDrain                        (* retry.hpp:92, retry_when.hpp:127, concat.hpp:91: the loop's condition *)
  | ISync (k : nat)               (* inside subscribe(): attempt k emits; then starts its thread *)
  | ILast (k : nat)               (* subscribe() returns: retry.hpp:102, retry_when.hpp:135, concat.hpp:105 *)
  | IAsync (k : nat)              (* the thread of attempt k *)
  | IClear (k : nat)              (* retry.hpp:67, retry_when.hpp:62, concat.hpp:79: disposable.clear() *)
  | IXchg (k : nat)               (* retry.hpp:69, retry_when.hpp:64, concat.hpp:81: exchange *)
  | IKill.                        (* the downstream observer is disposed from outside *)

  Definition set (s : rst) (x : rx o) (fin : nat -> bool) (d : mst D) : rst :=
    RS x (r_in s) (r_k s) (r_spawned s) fin (r_syn s) (r_asy s) (r_held s) d.
  Definition off (k : nat) (f : nat -> bool) : nat -> bool := fun i => (i =? k) || f i.
  (** An event arrives at the observer of attempt k; is_disposed(): retry.hpp:86,
      retry_when.hpp:84, 121, concat.hpp:74 with observer.hpp:84-144.  Simplification: a
      downstream observer disposed in the middle of this step is not considered. *)
  Definition receive (s : rst) (k : nat) (e : E) : rst * list ritem :=
    if r_fin s k || mdisp D (r_d s) then (s, [])
    else match ron o (r_x s) e with
         | (x, RNext v) => (set s x (r_fin s) (mstep D (r_d s) (Next v)), [])
         | (x, REnd e) => (set s x (off k (r_fin s)) (mstep D (r_d s) e), [])
         | (x, RAgain) => (set s x (off k (r_fin s)) (r_d s), [IClear k])
         | (x, RNone) => (set s x (r_fin s) (r_d s), [])
         end.
  Definition upd (k : nat) (l : list E) (f : nat -> list E) : nat -> list E := fun i => if i =? k then l else f i.

  Definition rstep (s : rst) (i : ritem) : option (rst * list ritem * list slab) :=
    match i with
    | IDrain =>
        if mdisp D (r_d s) then Some (s, [], [])
        else let (x, r) := rpre o (r_x s) in
             match r with
             | Some e => Some (set s x (r_fin s) (mstep D (r_d s) e), [], [])
             | None => let k := r_k s in
                       Some (RS x true (S k) (r_spawned s) (r_fin s) (r_syn s) (r_asy s) (k :: r_held s) (r_d s),
                             [ISync k], [SSub k (r_held s)])
             end
    | ISync k =>
        match r_syn s k with
        | [] => Some (RS (r_x s) (r_in s) (r_k s) (off k (r_spawned s)) (r_fin s) (r_syn s) (r_asy s) (r_held s) (r_d s), [ILast k], [])
        | e :: l => let (s', is) := receive (RS (r_x s) (r_in s) (r_k s) (r_spawned s) (r_fin s) (upd k l (r_syn s)) (r_asy s) (r_held s) (r_d s)) k e in
                    Some (s', is ++ [ISync k], [])
        end
    | IAsync k =>
        if r_spawned s k then
          match r_asy s k with
          | [] => Some (s, [], [])
          | e :: l => let (s', is) := receive (RS (r_x s) (r_in s) (r_k s) (r_spawned s) (r_fin s) (r_syn s) (upd k l (r_asy s)) (r_held s) (r_d s)) k e in
                      Some (s', is ++ [IAsync k], [])
          end
        else None
    | ILast k =>
        match att k with
        | Throws _ x => Some (set s (r_x s) (r_fin s) (mstep D (r_d s) (Err x)), [], [SRet k])    (* catch: retry.hpp:105-109, retry_when.hpp:138-142, concat.hpp:108-112 *)
        | Calls _ _ => let s' := RS (r_x s) false (r_k s) (r_spawned s) (r_fin s) (r_syn s) (r_asy s) (r_held s) (r_d s) in
                       Some (s', if r_in s then [] else [IDrain], [SRet k])
        end
    | IClear k => Some (RS (r_x s) (r_in s) (r_k s) (r_spawned s) (r_fin s) (r_syn s) (r_asy s) [] (r_d s), [IXchg k], [])
    | IXchg k => Some (RS (r_x s) false (r_k s) (r_spawned s) (r_fin s) (r_syn s) (r_asy s) (r_held s) (r_d s), if r_in s then [] else [IDrain], [])
    | IKill => Some (set s (r_x s) (r_fin s) (mkill D (r_d s)), [], [])
    end.
  Definition syn_of (a : attempt E) : list E := match a with Calls now _ => now | Throws now _ => now end.
  Definition asy_of (a : attempt E) : list E := match a with Calls _ later => later | Throws _ _ => [] end.
  Definition r_init (x : rx o) (d : mst D) : rst :=
    RS x false 0 (fun _ => false) (fun _ => false) (fun k => syn_of (att k)) (fun k => asy_of (att k)) [] d.
  (** The subscribing thread, the threads of the attempts, [kills] threads that dispose. *)
  Definition r_threads (kills : nat) : list (list ritem) :=
    [IDrain] :: map (fun k => [IAsync k]) (seq 0 (length script)) ++ repeat [IKill] kills.
End Resub.

Arguments RS {E V o D}.
Arguments r_x {E V o D} _.
Arguments r_in {E V o D} _.
Arguments r_k {E V o D} _.
Arguments r_spawned {E V o D} _ _.
Arguments r_fin {E V o D} _ _.
Arguments r_syn {E V o D} _ _.
Arguments r_asy {E V o D} _ _.
Arguments r_held {E V o D} _.
Arguments r_d {E V o D} _.

(** retry.hpp: state->count; on_error 58-73, on_completed 75-79, drain 94-95; the first value is
    n+1, 129.  Simplification: no wrap-around for n = 2^64-1 (it would cancel out). *)
Definition retry_op (V : Type) : rop (ev V) V :=
  ROp (ev V) V (option nat)
    (fun c => (match c with Some n => Some (pred n) | None => None end, None))
    (fun c e => (c, match e with
                    | Next v => RNext v
                    | Err x => match c with Some 0 => REnd (Err x) | _ => RAgain end
                    | Done => REnd Done
                    end)).
Definition retry_start (n : option nat) : option nat := match n with Some k => Some (S k) | None => None end.

(** sources/concat.hpp: the iterator as the number of elements left (None: infinite);
    strategy 60-86, drain 93-97, 103.  Containers whose iterators throw are left out. *)
Definition concat_op (V : Type) : rop (ev V) V :=
  ROp (ev V) V (option nat)
    (fun c => match c with Some 0 => (c, Some Done) | Some (S n) => (Some n, None) | None => (None, None) end)
    (fun c e => (c, match e with Next v => RNext v | Err x => REnd (Err x) | Done => RAgain end)).

(** retry_when.hpp: main strategy 96-117, inner strategy 58-80; remembers whether the notifier has
    been subscribed to.  Simplification: sources emit nothing after a terminal event, nor
    notifiers before they are subscribed to (such events are dropped here). *)
Definition when_op (V : Type) (sel : exn -> option exn) : rop (ev V + ev unit) V :=
  ROp (ev V + ev unit) V bool
    (fun _ => (false, None))
    (fun failed e =>
       match e with
       | inl (Next v) => (failed, if failed then RNone else RNext v)
       | inl (Err x) => if failed then (failed, RNone) else match sel x with Some y => (true, REnd (Err y)) | None => (true, RNone) end
       | inl Done => (failed, if failed then RNone else REnd Done)
       | inr n => (failed, if failed then match n with Next _ => RAgain | Err x => REnd (Err x) | Done => REnd Done end else RNone)
       end).

(** on_error_resume_next.hpp: strategy 63-84, inner strategy 27-41; observer.hpp:84-144 with
    is_disposed 91 and 45.  [sel x]: the exception selector(err) or subscribe throws.
    Remembers whether the source has failed; events that cannot come (of a source that has
    failed, of a fallback not chosen yet) are dropped. *)
Section Resume.
  Context {V : Type} (sel : exn -> option exn) (D : machine V).
  Definition resume_step (s : bool * mst D) (e : ev V + ev V) : bool * mst D :=
    let (failed, d) := s in
    if mdisp D d then s
    else match e with
         | inl (Err x) => if failed then s
                          else match sel x with Some y => (true, mstep D d (Err y)) | None => (true, d) end
         | inl e => if failed then s else (false, mstep D d e)
         | inr e => if failed then (true, mstep D d e) else s
         end.
  Definition resume_run (l : list (ev V + ev V)) (s : bool * mst D) : bool * mst D := fold_left resume_step l s.
End Resume.
