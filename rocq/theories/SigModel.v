(** from_signal.  /repo/src/extensions/rppqt/rppqt/sources/from_signal.hpp
    The arguments of the signal are one value of type V here (22-59: no argument gives
    none, one gives itself, several a tuple).  The emission of a signal calls the slot at
    once (Qt, direct connection). *)
From Verif Require Import Base Machine SubjSpec SubjModel SigSpec.

Section Sig.
  Context {V : Type} (D : machine V).

  (** The subject made by from_signal and whether the connections still exist. *)
  Record sig := SG { g_subj : subj (V := V) D; g_conn : bool }.

  (** 76-80: the subject, connected to the signal and to [destroyed]. *)
  Definition from_signal (d0 : mst D) : sig := SG (subj_init D d0) true.

  Definition sig_step (g : sig) (o : qop V) : option sig :=
    let sub x b := match sop_step D (fun _ _ => []) (g_subj g) x with Some s => Some (SG s b) | None => None end in
    match o with
    | QSub i => sub (OSub i) (g_conn g)                                                       (* 82 *)
    | QUnsub i => sub (OUnsub i) (g_conn g)
    | QSignal v => if g_conn g then sub (OEmit (Next v)) (g_conn g) else Some g               (* 31, 43, 55 *)
    | QDestroy => if g_conn g then sub (OEmit Done) false else Some g                         (* 80; Qt drops the connections of a dead sender *)
    end.
  Fixpoint sig_run (g : sig) (h : list (qop V)) : option sig :=
    match h with
    | [] => Some g
    | o :: r => match sig_step g o with Some g' => sig_run g' r | None => None end
    end.
End Sig.
