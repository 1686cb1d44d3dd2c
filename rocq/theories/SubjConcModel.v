(** Subjects used by several threads: /repo/src/rpp/rpp/subjects/details/subject_state.hpp. *)
From Verif Require Import Base Machine Concur MultiSpec.

(** ** Emission from several threads, the observers having been subscribed before *)
Section Emit.
  Context {V : Type} (D : machine V) (serialized : bool).

  Record zst := ZS {
    z_open : bool;             (* m_state holds observers *)
    z_list : list nat;         (* those observers *)
    z_flag : bool;             (* the state is disposed *)
    z_ser : bool;              (* m_serialized_mutex is locked *)
    z_sub : nat -> mst D
  }.
  Inductive zpc :=
  | Z0                         (* is_disposed() of the subject's observer, observer.hpp:84-144 *)
  | Z1                         (* on_next: the observers, under m_mutex, 114-127 *)
  | ZL (l : list nat)          (* 129: lock m_serialized_mutex *)
  | ZD (l : list nat)          (* 130, 138, 148: the observers that are still to be called *)
  | ZT                         (* 136, 146: lock m_serialized_mutex *)
  | ZX                         (* 137, 147: exchange_observers_under_lock_if_there *)
  | ZF.                        (* 140, 150: dispose() *)

  (** An event for observer i; if it disposes itself, it is taken out of the list (54-64).
      Simplification: the callback and the removal are one step. *)
  Definition znotify (g : zst) (i : nat) (e : ev V) : zst :=
    let d := mstep D (z_sub g i) e in
    let sub := fun j => if j =? i then d else z_sub g j in
    ZS (z_open g) (if mdisp D d then filter (fun j => negb (j =? i) && negb (mdisp D (sub j))) (z_list g) else z_list g) (z_flag g) (z_ser g) sub.

  Definition zstep (g : zst) (i : nat) (e : ev V) (k : zpc) : option (zst * option zpc) :=
    match k with
    | Z0 => if z_flag g then Some (g, None) else Some (g, Some (if is_term e then ZT else Z1))
    | Z1 => if z_open g then Some (g, Some (ZL (z_list g))) else Some (g, None)
    | ZL l => if z_ser g && serialized then None
              else Some (ZS (z_open g) (z_list g) (z_flag g) serialized (z_sub g), Some (ZD l))
    | ZT => if z_ser g && serialized then None
            else Some (ZS (z_open g) (z_list g) (z_flag g) serialized (z_sub g), Some ZX)
    | ZX => Some (ZS false (z_list g) (z_flag g) (z_ser g) (z_sub g), Some (ZD (if z_open g then z_list g else [])))
    | ZD [] => let g' := ZS (z_open g) (z_list g) (z_flag g) false (z_sub g) in
               Some (g', if is_term e then Some ZF else None)
    | ZD (j :: r) => Some (znotify g j e, Some (ZD r))
    | ZF => Some (ZS (z_open g) (z_list g) true (z_ser g) (z_sub g), None)
    end.
  Definition z_init (n : nat) (d : mst D) : zst := ZS true (seq 0 n) false false (fun _ => d).
  (** The thread is inside the loop over the observers. *)
  Definition calling (k : zpc) : bool := match k with ZX | ZD _ => true | _ => false end.
End Emit.

(** ** One emitting thread and threads that subscribe *)
Section Race.
  Context {V : Type} (first : list V -> list V).
  (** [first]: what a new subscriber gets of the values stored so far; behavior_subject: the
      last one, replay_subject: the buffered ones. *)
  Record rc := RC {
    r_mem : list V;                  (* values stored *)
    r_list : option (list nat);      (* the shared deque of observers; None = null pointer *)
    r_ub : bool;                     (* an invalidated iterator has been used *)
    r_recv : nat -> list V
  }.
  Inductive ritem :=
  | REmit (v : V)                    (* behavior_subject.hpp:57, replay_subject.hpp:97: store the value *)
  | RSnap (v : V)                    (* subject_state.hpp:114-127 *)
  | RDel (v : V) (len : nat) (l : list nat)       (* 130 *)
  | RSub (i : nat)                   (* behavior_subject.hpp:90, replay_subject.hpp:133: read *)
  | RFirst (i : nat) (l : list V)    (* behavior_subject.hpp:91, replay_subject.hpp:134 *)
  | RAdd (i : nat).                  (* on_subscribe, subject_state.hpp:82-99 *)

  Definition rstep (g : rc) (x : ritem) : option (rc * list ritem * list unit) :=
    match x with
    | REmit v => Some (RC (r_mem g ++ [v]) (r_list g) (r_ub g) (r_recv g), [RSnap v], [])
    | RSnap v => match r_list g with
                 | None => Some (g, [], [])
                 | Some l => Some (g, [RDel v (length l) l], [])
                 end
    | RDel v n [] => Some (g, [], [])
    | RDel v n (i :: r) =>
        let bad := match r_list g with Some l => negb (length l =? n) | None => false end in
        Some (RC (r_mem g) (r_list g) (r_ub g || bad) (fun j => if j =? i then r_recv g j ++ [v] else r_recv g j), [RDel v n r], [])
    | RSub i => Some (g, [RFirst i (first (r_mem g))], [])
    | RFirst i l => Some (RC (r_mem g) (r_list g) (r_ub g) (fun j => if j =? i then r_recv g j ++ l else r_recv g j), [RAdd i], [])
    | RAdd i => Some (RC (r_mem g) (Some (match r_list g with Some l => l ++ [i] | None => [i] end)) (r_ub g) (r_recv g), [], [])
    end.
  Definition r_init (mem : list V) : rc := RC mem None false (fun _ => []).
  Definition r_threads (vs : list V) (n : nat) : list (list ritem) := map REmit vs :: map (fun i => [RSub i]) (seq 0 n).
End Race.

(** ** Emitting into a serialized subject from inside one of its callbacks *)
Section Again.
  Context {V : Type} (serialized : bool) (react : nat -> V -> list V).
  (** [react i v]: the values that observer i emits into the same subject when it gets v.
      m_serialized_mutex is a std::mutex (192): locking it again on the same thread never
      succeeds (formally undefined behaviour). *)
  Record ag := AG { a_ser : bool; a_obs : list nat; a_log : list (nat * V) }.
  Inductive aitem := ACall (v : V) | ADel (v : V) (l : list nat) | AUnlock.
  Definition astep (g : ag) (x : aitem) : option (ag * list aitem * list unit) :=
    match x with
    | ACall v => if a_ser g && serialized then None                                   (* 129 *)
                 else Some (AG serialized (a_obs g) (a_log g), [ADel v (a_obs g)], [])
    | ADel v [] => Some (g, [AUnlock], [])
    | ADel v (i :: r) => Some (AG (a_ser g) (a_obs g) (a_log g ++ [(i, v)]), map ACall (react i v) ++ [ADel v r], [])     (* 130 *)
    | AUnlock => Some (AG false (a_obs g) (a_log g), [], [])
    end.
End Again.
