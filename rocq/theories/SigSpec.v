(** from_signal (C80): vocabulary of the claims. *)
From Verif Require Import Base.

(** What happens around a Qt object: its signal is emitted, it is destroyed; observer i is
    subscribed to the observable made by from_signal, its subscription is disposed. *)
Inductive qop (V : Type) := QSub (i : nat) | QUnsub (i : nat) | QSignal (v : V) | QDestroy.
Arguments QSub {V} i.
Arguments QUnsub {V} i.
Arguments QSignal {V} v.
Arguments QDestroy {V}.

Definition signals {V} (h : list (qop V)) : list V := flat_map (fun o => match o with QSignal v => [v] | _ => [] end) h.
Definition qsubs {V} (h : list (qop V)) : list nat := flat_map (fun o => match o with QSub i => [i] | _ => [] end) h.
