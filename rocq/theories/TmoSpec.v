(** What timeout has to do. *)
From Verif Require Import Base.

Section Spec.
  Context {V : Type}.
  (** A callback of the downstream observer begins with an event of the source or of the
      fallback; it ends; the source is released; the fallback is subscribed; the downstream
      observer is disposed from outside; the moved-from downstream observer is used. *)
  Inductive tlab := CSrc (e : ev V) (t : nat) | CFb (e : ev V) (t : nat) | CEnd (t : nat) | CRel (t : nat) | CSwitch (t : nat) | CKill | CMoved (v : V).

  Definition of_src (tr : list tlab) : list (ev V) := flat_map (fun l => match l with CSrc e _ => [e] | _ => [] end) tr.
  Definition of_fb (tr : list tlab) : list (ev V) := flat_map (fun l => match l with CFb e _ => [e] | _ => [] end) tr.

  (** A monitor: when the last value was delivered (or the subscription made), whether the source
      is released, the fallback subscribed, a callback running, the observer disposed or terminated. *)
  Record mon := Mon { m_last : nat; m_rel : bool; m_sw : bool; m_busy : bool; m_dead : bool }.
  Variable d : nat.
  Variable exact : bool.   (* the timer is never late and callbacks take no time *)
  Definition check (m : mon) (l : tlab) : option mon :=
    match l with
    | CSrc e t => if m_rel m || m_busy m || m_dead m || (exact && (m_last m + d <? t)) then None
                  else Some (Mon (m_last m) false (m_sw m) true (is_term e))
    | CFb e t => if m_sw m && negb (m_busy m) && negb (m_dead m) then Some (Mon (m_last m) (m_rel m) true true (is_term e)) else None
    | CEnd t => if m_busy m then Some (Mon (if m_rel m then m_last m else t) (m_rel m) (m_sw m) false (m_dead m)) else None
    | CRel t => if negb (m_rel m) && negb (m_busy m) && negb (m_dead m) && (m_last m + d <=? t) && (negb exact || (t =? m_last m + d))
                then Some (Mon (m_last m) true (m_sw m) false (m_dead m)) else None
    | CSwitch t => if m_rel m && negb (m_sw m) && negb (m_busy m) then Some (Mon (m_last m) true true false (m_dead m)) else None
    | CKill => Some (Mon (m_last m) (m_rel m) (m_sw m) (m_busy m) true)
    | CMoved _ => None
    end.
  Fixpoint watch (m : mon) (tr : list tlab) : option mon :=
    match tr with [] => Some m | l :: r => match check m l with Some m' => watch m' r | None => None end end.
  Definition m_init : mon := Mon 0 false false false false.
  Definition follows (tr : list tlab) : Prop := watch m_init tr <> None.
End Spec.
Arguments tlab V : clear implicits.
