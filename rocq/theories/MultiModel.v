(** Operators fed by several sources at once: merge, combine_latest, zip,
    with_latest_from, take_until, switch_on_next.
    All of them keep the downstream observer in a value_with_mutex
    (/repo/src/rpp/rpp/utils/utils.hpp:259-311, a plain std::mutex) and run
    "atomics; lock; work and downstream call; unlock" for every event.
    Every source is a thread of its own; any interleaving of the single steps is
    possible (Concur.v).  An event that arrives synchronously inside another call is the
    schedule in which that other call pauses. *)
From Verif Require Import Base Machine Concur MultiSpec.

(** Result of a step made before the lock is taken. *)
Inductive preres (P : Type) :=
| PRet                (* return without touching the downstream *)
| PMore               (* another step before the lock *)
| PGo (p : P)         (* get_observer_under_lock()-> ... *)
| PThrow (e : exn).   (* a user function threw *)
Arguments PRet {P}.
Arguments PMore {P}.
Arguments PGo {P} p.
Arguments PThrow {P} e.

(** One operator.  [A] = values of the sources, [B] = values of the result. *)
Record mop (A B : Type) := MOp {
  mo_S : Type;                                     (* shared state *)
  mo_P : Type;                                     (* what is left to do under the lock *)
  mo_init : mo_S;
  mo_ready : mo_S -> nat -> bool;                  (* source i has been subscribed *)
  mo_own : nat -> bool;                            (* observer of source i has an own disposable *)
  mo_gate : mo_S -> nat -> bool;                   (* strategy.is_disposed(), without the downstream's part *)
  mo_gate_locks : bool;                            (* is_disposed() itself takes the lock *)
  mo_pre : nat -> mo_S -> nat -> ev A -> mo_S * preres mo_P;
  mo_body : mo_S -> mo_P -> mo_S * list (ev B) * option exn;
  mo_err : exn -> mo_P                             (* strategy.on_error after a throw *)
}.
Arguments mo_S {A B} m.
Arguments mo_P {A B} m.
Arguments mo_init {A B} m.
Arguments mo_ready {A B} m s i.
Arguments mo_own {A B} m i.
Arguments mo_gate {A B} m s i.
Arguments mo_gate_locks {A B} m.
Arguments mo_pre {A B} m n s i e.
Arguments mo_body {A B} m s p.
Arguments mo_err {A B} m e.

Section Multi.
  Context {A B : Type} (o : mop A B) (D : machine B).

  Record gs := GS {
    g_lock : bool;           (* value_with_mutex::m_mutex, utils.hpp:306-308 *)
    g_op : mo_S o;
    g_own : list nat;        (* sources whose observer disposed itself *)
    g_down : mst D
  }.

  (** Program counter of one call observer.on_next/on_error/on_completed
      (observers/observer.hpp:84-144). *)
  Inductive pc :=
  | P0                     (* is_disposed() *)
  | PPre (n : nat)
  | PLock (p : mo_P o)
  | PBody (p : mo_P o)
  | PCall (l : list (ev B)) (t : option exn)   (* observer->on_...(): the downstream call *)
  | PUnlock (t : option exn)
  | PCatch (e : exn)       (* observer.hpp:93-95: on_error of the same observer *)
  | PFin.                  (* finally_action of on_error/on_completed: m_disposable.dispose() *)

  Definition owned (g : gs) (i : nat) : bool := existsb (Nat.eqb i) (g_own g).

  (** observer_impl::is_disposed, observer.hpp:74-77: own disposable or strategy.  The
      downstream's disposal reaches the operator's state a moment later; [stale] = the
      call still sees the old value. *)
  Definition gate (g : gs) (i : nat) (stale : bool) : bool :=
    (mo_own o i && owned g i) || mo_gate o (g_op g) i || (mdisp D (g_down g) && negb stale).

  (** The downstream's on_next callback makes source j emit on the same thread. *)
  Variable react : mst D -> list (nat * ev A).

  (** One step of source i's call with event e.  None = blocked.  The second component:
      None = the call returns. *)
  Definition pstep (g : gs) (i : nat) (e : ev A) (stale : bool) (k : pc)
    : option (gs * option pc * list (nat * ev A)) :=
    match k with
    | P0 =>
        if negb (mo_ready o (g_op g) i) then None
        else if mo_gate_locks o && g_lock g then None
        else if gate g i stale then Some (g, None, [])
        else Some (g, Some (PPre 0), [])
    | PPre n =>
        let '(s, r) := mo_pre o n (g_op g) i e in
        let g' := GS (g_lock g) s (g_own g) (g_down g) in
        match r with
        | PRet => Some (g', Some PFin, [])
        | PMore => Some (g', Some (PPre (S n)), [])
        | PGo p => Some (g', Some (PLock p), [])
        | PThrow x => Some (g', Some (PCatch x), [])
        end
    | PLock p =>                                    (* utils.hpp:280-284 *)
        if g_lock g then None
        else Some (GS true (g_op g) (g_own g) (g_down g), Some (PBody p), [])
    | PBody p =>
        let '(s, l, t) := mo_body o (g_op g) p in
        Some (GS (g_lock g) s (g_own g) (g_down g), Some (PCall l t), [])
    | PCall l t =>
        let d := mrun D (g_down g) l in
        Some (GS (g_lock g) (g_op g) (g_own g) d, Some (PUnlock t), match l with [] => [] | _ => react d end)
    | PUnlock t =>                                  (* ~scoped_lock *)
        Some (GS false (g_op g) (g_own g) (g_down g),
              Some (match t with Some x => PCatch x | None => PFin end), [])
    | PCatch x =>                                   (* observer.hpp:93, 120-129 *)
        if mo_gate_locks o && g_lock g then None
        else if gate g i stale then Some (g, None, [])
        else Some (GS (g_lock g) (g_op g) (i :: g_own g) (g_down g), Some (PLock (mo_err o x)), [])
    | PFin =>
        Some (GS (g_lock g) (g_op g) (if is_term e then i :: g_own g else g_own g) (g_down g), None, [])
    end.

  (** After a caught exception the own disposable is disposed as well (finally_action of
      on_error, observer.hpp:122-125).  Simplification: recorded at PCatch and not at the
      end; only later calls of the same source, which come after the end, look at it. *)

  Inductive item := IEv (i : nat) (e : ev A) (stale : bool) | IRun (i : nat) (e : ev A) (stale : bool) (k : pc).

  Definition istep (g : gs) (x : item) : option (gs * list item * list (lab A)) :=
    match x with
    | IEv i e st => Some (g, [IRun i e st P0], [Inv i e])
    | IRun i e st k =>
        match pstep g i e st k with
        | Some (g', Some k', n) => Some (g', map (fun je => IEv (fst je) (snd je) true) n ++ [IRun i e st k'], [])
        | Some (g', None, n) => Some (g', map (fun je => IEv (fst je) (snd je) true) n, [Ret i e])
        | None => None
        end
    end.

  Definition g_init (d : mst D) : gs := GS false (mo_init o) [] d.

  Fixpoint number {X} (i : nat) (l : list (list X)) : list (list (nat * X)) :=
    match l with [] => [] | p :: r => map (pair i) p :: number (S i) r end.

  (** One thread per source, running the calls of that source. *)
  Definition threads (progs : list (list (ev A * bool))) : list (list item) :=
    map (map (fun x => IEv (fst x) (fst (snd x)) (snd (snd x)))) (number 0 progs).

  (** A single call run without interruption. *)
  Fixpoint run1 (fuel : nat) (g : gs) (i : nat) (e : ev A) (k : pc) : option gs :=
    match fuel with
    | 0 => None
    | S f => match pstep g i e false k with
             | Some (g', Some k', _) => run1 f g' i e k'
             | Some (g', None, _) => Some g'
             | None => None
             end
    end.
  Fixpoint seq_run (g : gs) (h : list (nat * ev A)) : option gs :=
    match h with
    | [] => Some g
    | (i, e) :: r => match run1 20 g i e P0 with Some g' => seq_run g' r | None => None end
    end.
End Multi.

Arguments P0 {A B o}.
Arguments PPre {A B o} n.
Arguments PLock {A B o} p.
Arguments PBody {A B o} p.
Arguments PCall {A B o} l t.
Arguments PUnlock {A B o} t.
Arguments PCatch {A B o} e.
Arguments PFin {A B o}.
Arguments IEv {A B o} i e stale.
Arguments IRun {A B o} i e stale k.
Arguments GS {A B o D} g_lock g_op g_own g_down.
Arguments g_lock {A B o D} g.
Arguments g_op {A B o D} g.
Arguments g_own {A B o D} g.
Arguments g_down {A B o D} g.

(** ** merge: operators/merge.hpp *)
(** The outer source is source 0 and sends observables ([inl tt], the j-th one becomes
    source j); source j > 0 sends values ([inr v]). *)
Record merge_s := MergeS { ms_needed : nat; ms_subs : nat }.
Definition merge_op (V : Type) : mop (unit + V) V :=
  MOp (unit + V) V merge_s (ev V)
    (MergeS 1 0)                                       (* merge.hpp:48: m_on_completed_needed{1} *)
    (fun s i => i <=? ms_subs s)
    (fun _ => true) (fun _ _ => false) false
    (fun _ s i e =>
       match e with
       | Next (inl _) =>                               (* merge.hpp:122-126 *)
           if i =? 0 then (MergeS (S (ms_needed s)) (S (ms_subs s)), PRet) else (s, PRet)
       | Next (inr v) => if i =? 0 then (s, PRet) else (s, PGo (Next v))    (* 103-107 *)
       | Err x => (s, PGo (Err x))                     (* 75-78 *)
       | Done =>                                       (* 39, 80-93 *)
           (MergeS (ms_needed s - 1) (ms_subs s), if ms_needed s =? 1 then PGo Done else PRet)
       end)
    (fun s p => (s, [p], None))
    (fun x => Err x).
(** Simplification: removing the inner's disposables on completion (merge.hpp:88-92)
    only frees memory and is left out. *)

(** ** combine_latest: operators/combine_latest.hpp, details/combining_strategy.hpp *)
(** [n] = number of sources; all values share the type A (the C++ code has a tuple of
    types); the selector gets the list of values. *)
Record comb_s (X : Type) := CombS { cs_needed : nat; cs_vals : list X }.
Arguments CombS {X} _ _.
Arguments cs_needed {X} c.
Arguments cs_vals {X} c.

Fixpoint upd {X} (i : nat) (f : X -> X) (l : list X) : list X :=
  match l, i with
  | [], _ => []
  | x :: r, 0 => f x :: r
  | x :: r, S j => x :: upd j f r
  end.

Fixpoint all_some {X} (l : list (option X)) : option (list X) :=
  match l with
  | [] => Some []
  | Some x :: r => match all_some r with Some y => Some (x :: y) | None => None end
  | None :: _ => None
  end.

Definition combine_latest_op {A B : Type} (n : nat) (f : list A -> res B) : mop A B :=
  MOp A B (comb_s (option A)) (ev A * nat + exn)
    (CombS n (repeat None n))                          (* combine_latest.hpp:25-30: sizeof...(Args) *)
    (fun _ i => i <? n)
    (fun _ => true) (fun _ _ => false) false
    (fun _ s i e =>
       match e with
       | Next _ => (s, PGo (inl (e, i)))
       | Err x => (s, PGo (inr x))                     (* combining_strategy.hpp:64-67 *)
       | Done => (CombS (cs_needed s - 1) (cs_vals s), (* 69-73, 37-41 *)
                  if cs_needed s =? 1 then PGo (inl (Done, i)) else PRet)
       end)
    (fun s p =>
       match p with
       | inr x => (s, [Err x], None)
       | inl (Next v, i) =>                            (* combine_latest.hpp:48-63 *)
           let vs := upd i (fun _ => Some v) (cs_vals s) in
           let s' := CombS (cs_needed s) vs in
           match all_some vs with
           | Some l => match f l with
                       | Ok b => (s', [Next b], None)
                       | Throw x => (s', [], Some x)
                       end
           | None => (s', [], None)
           end
       | inl (_, _) => (s, [Done], None)
       end)
    (fun x => inr x).

(** ** zip: operators/zip.hpp *)
(** m_pendings: one deque per source.  The selector gets the front values by move; if it
    throws they stay in the deques in moved-from state ([None]), zip.hpp:61-67.  A
    moved-from front given to the selector again is the distinct outcome [moved]. *)
Definition front {X} (q : list X) : option X := match q with [] => None | x :: _ => Some x end.
Definition zip_op {A B : Type} (n : nat) (f : list (option A) -> res B) : mop A B :=
  MOp A B (comb_s (list (option A))) (ev A * nat + exn)
    (CombS n (repeat [] n))
    (fun _ i => i <? n)
    (fun _ => true) (fun _ _ => false) false
    (fun _ s i e =>
       match e with
       | Next _ => (s, PGo (inl (e, i)))
       | Err x => (s, PGo (inr x))
       | Done => (CombS (cs_needed s - 1) (cs_vals s), if cs_needed s =? 1 then PGo (inl (Done, i)) else PRet)
       end)
    (fun s p =>
       match p with
       | inr x => (s, [Err x], None)
       | inl (Next v, i) =>                            (* zip.hpp:50-57 *)
           let qs := upd i (fun q => q ++ [Some v]) (cs_vals s) in
           match all_some (map front qs) with
           | Some l => match f l with
                       | Ok b => (CombS (cs_needed s) (map (@tl _) qs), [Next b], None)
                       | Throw x => (CombS (cs_needed s) (map (fun q => match q with [] => [] | _ :: r => None :: r end) qs), [], Some x)
                       end
           | None => (CombS (cs_needed s) qs, [], None)
           end
       | inl (_, _) => (s, [Done], None)
       end)
    (fun x => inr x).

(** ** with_latest_from: operators/with_latest_from.hpp *)
(** Source 0 is the main one, sources 1..n the others. *)
Definition with_latest_op {A B : Type} (n : nat) (f : A -> list A -> res B) : mop A B :=
  MOp A B (list (option A)) (ev B)
    (repeat None n)
    (fun _ i => i <=? n)
    (fun i => negb (i =? 0))                           (* with_latest_from.hpp:87: main has none_disposable_strategy *)
    (fun _ _ => false) false
    (fun _ s i e =>
       if i =? 0 then
         match e with
         | Next v =>                                   (* 101-113 *)
             match all_some s with
             | Some l => match f v l with Ok b => (s, PGo (Next b)) | Throw x => (s, PThrow x) end
             | None => (s, PRet)
             end
         | Err x => (s, PGo (Err x))                   (* 115-118 *)
         | Done => (s, PGo Done)                       (* 120-123 *)
         end
       else
         match e with
         | Next v => (upd (i - 1) (fun _ => Some v) s, PRet)   (* 66-70 *)
         | Err x => (s, PGo (Err x))                   (* 72-75 *)
         | Done => (s, PRet)                           (* 77 *)
         end)
    (fun s p => (s, [p], None))
    (fun x => Err x).

(** ** take_until: operators/take_until.hpp *)
(** Source 0 is the main one, source 1 the notifier; state = m_stopped (line 45). *)
Definition take_until_op (A : Type) : mop A A :=
  MOp A A bool (ev A) false
    (fun _ i => i <=? 1)
    (fun _ => false)                                   (* take_until.hpp:51: none_disposable_strategy *)
    (fun _ _ => false) true                            (* 67: is_disposed() locks *)
    (fun _ s i e =>
       if i =? 0 then
         match e with
         | Next v => if s then (s, PRet) else (s, PGo (Next v))       (* 85-89 *)
         | _ => (true, if s then PRet else PGo e)                     (* 53-63 *)
         end
       else
         match e with
         | Next _ => (true, if s then PRet else PGo Done)             (* 74-78 *)
         | _ => (true, if s then PRet else PGo e)
         end)
    (fun s p => (s, [p], None))
    (fun x => Err x).

(** ** switch_on_next: operators/switch_on_next.hpp *)
(** Source 0 is the outer one; source j > 0 the j-th inner.  [sw_gone] = references
    already disposed (0 = m_this_refcount, j = the one given to the j-th inner),
    [sw_last] = m_last_refcount, [sw_subs] = number of references handed out. *)
Record switch_s := SwitchS { sw_gone : list nat; sw_last : option nat; sw_subs : nat }.
Definition sw_is_gone (s : switch_s) (i : nat) : bool := existsb (Nat.eqb i) (sw_gone s).
(** refcount_disposable::is_disposed: all references are gone. *)
Definition sw_all_gone (s : switch_s) : bool := forallb (sw_is_gone s) (seq 0 (S (sw_subs s))).
Definition switch_op (V : Type) : mop (unit + V) V :=
  MOp (unit + V) V switch_s (ev V)
    (SwitchS [] None 0)
    (fun s i => i <=? sw_subs s)
    (fun _ => false)                                   (* switch_on_next.hpp:47, 89: none_disposable_strategy *)
    sw_is_gone                                         (* 80, 119: refcounted.is_disposed() *)
    false
    (fun n s i e =>
       match e with
       | Next (inl _) =>                               (* 99-104 *)
           if i =? 0 then
             if n =? 0 then (SwitchS (match sw_last s with Some k => k :: sw_gone s | None => sw_gone s end) (sw_last s) (sw_subs s), PMore)
             else (SwitchS (sw_gone s) (Some (S (sw_subs s))) (S (sw_subs s)), PRet)
           else (s, PRet)
       | Next (inr v) => if i =? 0 then (s, PRet) else (s, PGo (Next v))   (* 57-61 *)
       | Err x => (s, PGo (Err x))                     (* 63-66, 106-109 *)
       | Done =>                                       (* 68-73, 111-116 *)
           if n =? 0 then (SwitchS (i :: sw_gone s) (sw_last s) (sw_subs s), PMore)
           else (s, if sw_all_gone s then PGo Done else PRet)
       end)
    (fun s p => (s, [p], None))
    (fun x => Err x).
