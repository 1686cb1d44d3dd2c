(** base_disposable_impl::dispose_impl (details/base_disposable.hpp:36-41) and
    callback_disposable (callback_disposable.hpp:40) under interleaving. *)
From Verif Require Import Base Concur.

(** m_disposed. *)
Definition once_state := bool.

Inductive once_item :=
| OCall                (* dispose() not yet started *)
| ORun                 (* base_dispose_impl: the callback is about to run *)
| ORet.                (* return from dispose() *)
Inductive once_label := OLRun | OLRet.

Section Once.
  (** How often the callback itself calls dispose() on its own disposable. *)
  Variable nested : nat.
  Definition once_step (s : once_state) (it : once_item) : option (once_state * list once_item * list once_label) :=
    match it with
    | OCall => (* 39: m_disposed.exchange(true) == false *)
        if s then Some (true, [ORet], []) else Some (true, [ORun; ORet], [])
    | ORun => (* 40 *) Some (s, repeat OCall nested, [OLRun])
    | ORet => Some (s, [], [OLRet])
    end.
  Definition once_init (threads : list nat) : gconfig := (false, map (repeat OCall) threads).
End Once.
