(** window_toggle with the source and the closing observables on different threads, and
    with callbacks that cause a closing: /repo/src/rpp/rpp/operators/window_toggle.hpp. *)
From Verif Require Import Base Concur TogConcSpec.

Section Toggle.
  (** [react i v]: closing observables that fire while window i's observer handles v. *)
  Variable react : nat -> nat -> list nat.

  Record kst := KS { k_lock : bool; k_list : list nat }.   (* m_mutex (value_with_mutex); state_t::observers *)
  Inductive kitem :=
  | KSrc (v : nat)                        (* main on_next: lock, 160 *)
  | KLoop (v : nat) (l : list nat)        (* 161-162: the windows still to be called *)
  | KIn (v i : nat) (l : list nat)        (* inside obs.on_next(v) of window i *)
  | KClose (i : nat)                      (* closing's on_next / on_completed: itr->on_completed(), 99-103, without the lock *)
  | KOut (i : nat)                        (* inside it *)
  | KErase (i : nat).                     (* 106-107: lock, erase, unlock *)
  (** Simplifications: one observer per window; the disposables (101, 104) do not matter here;
      each closing fires once. *)
  Definition kstep (s : kst) (x : kitem) : option (kst * list kitem * list wlab) :=
    match x with
    | KSrc v => if k_lock s then None else Some (KS true (k_list s), [KLoop v (k_list s)], [])
    | KLoop v [] => Some (KS false (k_list s), [], [])
    | KLoop v (i :: r) => Some (s, map KClose (react i v) ++ [KIn v i r], [WBegin i])
    | KIn v i r => Some (s, [KLoop v r], [WEnd i])
    | KClose i => Some (s, [KOut i; KErase i], [WBegin i])
    | KOut i => Some (s, [], [WEnd i])
    | KErase i => if k_lock s then None else Some (KS false (filter (fun j => negb (j =? i)) (k_list s)), [], [])
    end.
End Toggle.
