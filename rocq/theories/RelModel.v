(** How the operators with several sources keep and release the disposables of their
    sources: zip / combine_latest, with_latest_from, take_until and merge.
    /repo/src/rpp/rpp/operators/details/combining_strategy.hpp, with_latest_from.hpp,
    take_until.hpp, merge.hpp; observers/observer.hpp:49-144;
    observers/details/disposable_strategy.hpp:68-105; disposables/composite_disposable.hpp.
    Values are left out: a call says what its effect on the downstream is.  Any thread may
    make the next step; a source makes one call after another (the observer contract), and
    every atomic access, or work under one mutex, is one step. *)
From Verif Require Import Base RelSpec.

Inductive rop :=
| RComb (n : nat)      (* zip, combine_latest over n sources: combining_strategy.hpp *)
| RWith (n : nat)      (* with_latest_from: 0 is the main source, 1..n the others *)
| RTake                (* take_until: 0 is the main source, 1 the notifier *)
| RMerge.              (* merge: 0 is the outer source, j > 0 the j-th inner *)

(** What on_next leads to: the result goes on, the downstream ends (its callback throws or
    unsubscribes, or an operator below completes), or the selector throws. *)
Inductive outcome := Quiet | Ends | Throws.
Inductive rcall :=
| CUp (d : nat) | CNext (o : outcome) | CErr | CDone
| CInner               (* the outer source of merge sends an observable *)
| CDisp.               (* the user unsubscribes the result *)

Inductive micro :=
| MRel (d : nat)       (* d.dispose() *)
| MDAdd (d : nat)      (* downstream.set_upstream(d), observer.hpp:49-66 *)
| MDDisp               (* downstream.on_error / on_completed / dispose *)
| MCDisp               (* dispose of the operator's own composite *)
| MCAdd (d : nat)      (* add to it *)
| MCRem                (* merge.hpp:88-92: remove what this source has added *)
| MLAdd (d : nat)      (* own disposable of the source's observer: observer.hpp:58 *)
| MKeep (d : nat)      (* merge.hpp:67: m_disposables.push_back *)
| MLDisp               (* m_disposable.dispose() in the finally_action, observer.hpp:122-125 *)
| MDec                 (* decrement_on_completed: merge.hpp:39, combining_strategy.hpp:37-41 *)
| MStop                (* take_until.hpp:53-63, 74-78: stop_return_was_stopped *)
| MPass                (* take_until.hpp:85-89: forwards unless stopped *)
| MCatch               (* observer.hpp:93-95: on_error after a throw *)
| MInner.              (* merge.hpp:122-126 *)

Record rs := RS {
  s_pc : nat -> list micro;   (* what is left of the current call of source i *)
  d_flag : bool;              (* the downstream is disposed *)
  d_ups : list nat;           (* disposables of sources given to the downstream *)
  c_flag : bool;              (* the operator's composite: merge_state::m_disposable (merge.hpp:47),
                                 with_latest_from_state::m_disposable (:45), combining_state (:25) *)
  c_kids : list nat;
  l_flag : nat -> bool;       (* own disposable of the observer of source i *)
  l_ups : nat -> list nat;
  m_disp : nat -> list nat;   (* merge.hpp:97: m_disposables *)
  needed : nat;               (* m_on_completed_needed *)
  subs : nat;                 (* inner observables received *)
  stopped : bool              (* take_until.hpp:45 *)
}.

Definition fset {X} (f : nat -> X) (i : nat) (v : X) : nat -> X := fun j => if j =? i then v else f j.
Definition with_pc (s : rs) (i : nat) (l : list micro) : rs :=
  RS (fset (s_pc s) i l) (d_flag s) (d_ups s) (c_flag s) (c_kids s) (l_flag s) (l_ups s) (m_disp s) (needed s) (subs s) (stopped s).

Section Rel.
  Variable op : rop.

  (** Observers with none_disposable_strategy have no own disposable: take_until.hpp:51,
      with_latest_from.hpp:87 (the main source). *)
  Definition owns (i : nat) : bool :=
    match op with RComb _ | RMerge => true | RWith _ => negb (i =? 0) | RTake => false end.
  Definition ready (s : rs) (i : nat) : bool :=
    match op with RComb n => i <? n | RWith n => i <=? n | RTake => i <=? 1 | RMerge => i <=? subs s end.
  (** observer_impl::is_disposed, observer.hpp:74-77; combining_strategy.hpp:59-62,
      with_latest_from.hpp:59-62, 97-100, merge.hpp:70-73, take_until.hpp:67. *)
  Definition gate (s : rs) (i : nat) : bool :=
    (owns i && l_flag s i) || match op with RTake => d_flag s | _ => c_flag s end.

  Definition own (i : nat) (l : list micro) : list micro := if owns i then l else [].
  (** set_upstream: observer.hpp:58-59; combining_strategy.hpp:54-57, take_until.hpp:65,
      with_latest_from.hpp:54-57, 92-95, merge.hpp:64-68. *)
  Definition up_body (i d : nat) : list micro :=
    own i [MLAdd d] ++
    match op with RComb _ | RTake => [MDAdd d] | RWith _ => [MCAdd d] | RMerge => [MCAdd d; MKeep d] end.
  (** The strategies' on_next / on_error / on_completed. *)
  Definition body (i : nat) (c : rcall) : list micro :=
    match c with
    | CUp d => up_body i d
    | CNext o =>
        match op, o with
        | RTake, _ => if i =? 0 then match o with Ends => [MPass] | _ => [] end else [MStop]
        | RMerge, Ends => if i =? 0 then [] else [MDDisp]
        | RMerge, _ => []
        | RWith _, Ends => if i =? 0 then [MDDisp] else []
        | RWith _, Throws => if i =? 0 then [MCatch] else []
        | RComb _, Ends => [MDDisp]
        | RComb _, Throws => [MCatch]
        | _, Quiet => []
        end
    | CErr => match op with RTake => [MStop] | _ => [MDDisp] end ++ own i [MLDisp]
    | CDone =>
        match op with
        | RTake => [MStop]
        | RWith _ => if i =? 0 then [MDDisp] else []
        | _ => [MDec]
        end ++ own i [MLDisp]
    | CInner => match op with RMerge => if i =? 0 then [MInner] else [] | _ => [] end
    | CDisp => [MDDisp]
    end.
  Definition is_end (c : rcall) : bool := match c with CErr | CDone => true | _ => false end.

  (** A call begins (when the source has no other call in progress). *)
  Definition begin (s : rs) (i : nat) (c : rcall) : option (rs * list rlab) :=
    match s_pc s i with
    | _ :: _ => None
    | [] =>
        match c with
        | CDisp => Some (with_pc s i [MDDisp], [])
        | CUp d =>
            if negb (ready s i) then None
            else Some (with_pc s i (if gate s i then [MRel d] else up_body i d), [LUp i d])   (* observer.hpp:51-55 *)
        | _ =>
            if negb (ready s i) then None
            else if gate s i then Some (s, [])                                           (* observer.hpp:88, 122, 137 *)
            else Some (with_pc s i (body i c), if is_end c then [LTerm i] else [])
        end
    end.

  (** One step of source i. *)
  Definition mexec (s : rs) (i : nat) (m : micro) : rs * list micro * list rlab :=
    let '(RS p df du cf ck lf lu md n k st) := s in
    match m with
    | MRel d => (s, [], [LRel d])
    | MDAdd d => if df then (s, [MRel d], []) else (RS p df (du ++ [d]) cf ck lf lu md n k st, [], [])
    | MDDisp =>                      (* disposable_strategy.hpp:86-91: flag, then the upstreams *)
        if df then (s, [], [])
        else (RS p true du cf ck lf lu md n k st, match op with RTake => [] | _ => [MCDisp] end ++ map MRel du, [LOver])
    | MCDisp =>                      (* composite_disposable.hpp:41-61 *)
        if cf then (s, [], []) else (RS p df du true [] lf lu md n k st, map MRel ck, [])
    | MCAdd d =>                     (* composite_disposable.hpp:65-94 *)
        if cf then (s, [MRel d], []) else (RS p df du cf (ck ++ [d]) lf lu md n k st, [], [])
    | MCRem => (RS p df du cf (filter (fun d => negb (existsb (Nat.eqb d) (md i))) ck) lf lu md n k st, [], [])
    | MLAdd d => (RS p df du cf ck lf (fset lu i (lu i ++ [d])) md n k st, [], [])
    | MKeep d => (RS p df du cf ck lf lu (fset md i (md i ++ [d])) n k st, [], [])
    | MLDisp => (RS p df du cf ck (fset lf i true) lu md n k st, map MRel (lu i), [])
    | MDec =>
        (RS p df du cf ck lf lu md (n - 1) k st,
         if n =? 1 then [MDDisp] else match op with RMerge => [MCRem] | _ => [] end, [])
    | MStop => (RS p df du cf ck lf lu md n k true, if st then [] else [MDDisp], [])
    | MPass => (s, if st then [] else [MDDisp], [])
    | MCatch => if gate s i then (s, [], []) else (s, MDDisp :: own i [MLDisp], [LTerm i])
    | MInner => (RS p df du cf ck lf lu md (S n) (S k) st, [], [LNew (S k)])
    end.
  (** Simplification: add() skips a disposable that is disposed already
      (composite_disposable.hpp:67-68); keeping it makes no difference, disposing twice is
      harmless. *)

  Inductive move := Begin (i : nat) (c : rcall) | Step (i : nat).
  (** Moves that are not possible are left out. *)
  Definition rstep (s : rs) (m : move) : rs * list rlab :=
    match m with
    | Begin i c => match begin s i c with Some r => r | None => (s, []) end
    | Step i =>
        match s_pc s i with
        | [] => (s, [])
        | x :: r => let '(s', l, ls) := mexec s i x in (with_pc s' i (l ++ r), ls)
        end
    end.
  Fixpoint rrun (s : rs) (ms : list move) : rs * list rlab :=
    match ms with
    | [] => (s, [])
    | m :: r => let '(s1, a) := rstep s m in let '(s2, b) := rrun s1 r in (s2, a ++ b)
    end.

  Definition r_init : rs :=
    RS (fun _ => []) false [] false [] (fun _ => false) (fun _ => []) (fun _ => [])
       (match op with RComb n => n | _ => 1 end) 0 false.
  (** No call is in progress. *)
  Definition quiet (s : rs) : Prop := forall i, s_pc s i = [].
End Rel.
