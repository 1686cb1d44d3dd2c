(** as_blocking: rpp/observables/blocking_observable.hpp 22-73, with the user's observer
    (observers/observer.hpp 84-144, local_disposable_strategy, details/disposable_strategy.hpp 67-96)
    and base_disposable (disposables/details/base_disposable.hpp 30-44).
    User callbacks return normally.  A waiting thread may wake up spuriously. *)
From Verif Require Import Base Concur BlockSpec.

Section Block.
  Context {V : Type}.
  (** [b_obs]: the observer's m_is_disposed; [b_flag]: m_disposed of the blocking_disposable;
      [b_lock], [b_comp]: its m_mutex, m_completed (41-43); [b_woken]: the waiter was notified. *)
  Record bst := BS { b_obs : bool; b_flag : bool; b_lock : bool; b_comp : bool; b_woken : bool }.
  Definition b_init : bst := BS false false false false false.

  Inductive bitem :=
  | BEv (e : ev V)     (* the source calls on_next / on_error / on_completed: is_disposed()? *)
  | BCall (e : ev V)   (* it was not disposed: the user's callback is called *)
  | BRet (e : ev V)    (* the user's callback returns *)
  | BDisp              (* disposable_strategy.hpp 86-91: m_is_disposed.set() *)
  | BUp                (* ... m_upstreams.dispose(): base_disposable.hpp 40-41: exchange *)
  | BLockD             (* blocking_observable.hpp 34 *)
  | BComp              (* 35 *)
  | BUnlockD           (* 36 *)
  | BNote              (* 37 *)
  | BUser              (* the user calls dispose() *)
  | BChk               (* 70: m_original.subscribe has returned; is_disposed? *)
  | BLock              (* 27 *)
  | BPred              (* 28: m_completed? *)
  | BWait              (* 28: inside m_cv.wait *)
  | BRelock            (* 28: woken *)
  | BUnlock            (* end of 27's scope *)
  | BEnd               (* subscribe returns *)
  | BSpur.             (* a spurious wake-up *)

  Definition bstep (s : bst) (i : bitem) : option (bst * list bitem * list (blab V)) :=
    match i with
    | BEv e => if b_obs s then Some (s, [], []) else Some (s, [BCall e], [])
    | BCall e => Some (s, [BRet e], [JCall e])
    | BRet e => Some (s, (if is_term e then [BDisp] else []), [JRet e])
    | BUser => Some (s, [BDisp], [JDispose])
    | BDisp => Some (BS true (b_flag s) (b_lock s) (b_comp s) (b_woken s), [BUp], [])
    | BUp => if b_flag s then Some (s, [], []) else Some (BS (b_obs s) true (b_lock s) (b_comp s) (b_woken s), [BLockD], [])
    | BLockD | BLock | BRelock =>
        if b_lock s then None
        else Some (BS (b_obs s) (b_flag s) true (b_comp s) (b_woken s), match i with BLockD => [BComp] | _ => [BPred] end, [])
    | BComp => Some (BS (b_obs s) (b_flag s) (b_lock s) true (b_woken s), [BUnlockD], [])
    | BUnlockD | BUnlock =>
        Some (BS (b_obs s) (b_flag s) false (b_comp s) (b_woken s), match i with BUnlockD => [BNote] | _ => [BEnd] end, [])
    | BNote | BSpur => Some (BS (b_obs s) (b_flag s) (b_lock s) (b_comp s) true, [], [])
    | BChk => if b_flag s then Some (s, [BEnd], []) else Some (s, [BLock], [])
    | BPred => if b_comp s then Some (s, [BUnlock], [])
               else Some (BS (b_obs s) (b_flag s) false (b_comp s) false, [BWait], [])
    | BWait => if b_woken s then Some (s, [BRelock], []) else None
    | BEnd => Some (s, [], [JReturn])
    end.

  (** Thread 0 subscribes: the source emits [es0] inside m_original.subscribe; the other threads
      emit events, dispose the subscription or cause spurious wake-ups. *)
  Inductive bact := AEmit (e : ev V) | ADispose | ASpur.
  Definition bprog (a : bact) : bitem := match a with AEmit e => BEv e | ADispose => BUser | ASpur => BSpur end.
  Definition b_start (es0 : list (ev V)) (ts : list (list bact)) : bst * list (list bitem) :=
    (b_init, (map BEv es0 ++ [BChk]) :: map (map bprog) ts).
End Block.
Arguments bitem V : clear implicits.
Arguments bact V : clear implicits.
