(** How switch_on_next and concat keep and release the disposables of their sources:
    through references of a refcount_disposable, one for the outer source and one for the
    current inner one.
    /repo/src/rpp/rpp/operators/switch_on_next.hpp, concat.hpp,
    disposables/refcount_disposable.hpp, observers/observer.hpp:49-144.
    Values are left out; any thread may make the next step; a source makes one call after
    another; every atomic access, or work under one mutex, is one step.  Source 0 is the
    outer one, source j > 0 the j-th inner observable that was subscribed. *)
From Verif Require Import Base RelSpec ConcatModel.

Inductive qop := QSwitch | QConcat.

Inductive qcall :=
| UUp (d : nat)        (* set_upstream *)
| UNext (ends : bool)  (* on_next; [ends]: the downstream's callback ends the result *)
| UErr | UDone
| UInner               (* the outer source sends an observable *)
| UDisp.               (* the user unsubscribes the result *)

(** A reference; None is the empty wrapper (refcount_disposable.hpp:105). *)
Definition ref := option nat.

Inductive qm :=
| QRel (d : nat)              (* d.dispose() *)
| QDDisp                      (* downstream.on_error / on_completed / dispose *)
| QSDisp                      (* dispose of the refcount_disposable *)
| QRDisp (r : ref)            (* dispose of a reference *)
| QSRem (k : nat)             (* refcount_disposable.hpp:84: m_state.remove *)
| QRAdd (r : ref) (d : nat)   (* refcounted.add(d) *)
| QAddRef                     (* refcount_disposable.hpp:99-115 *)
| QSAdd (k : nat)             (* :111 add(inner) *)
| QChk                        (* switch_on_next.hpp:71, 114; concat.hpp:63, 187: is_disposed() *)
| QDrop                       (* switch_on_next.hpp:101: m_last_refcount.dispose() *)
| QBind (r : ref)             (* switch_on_next.hpp:102-103: subscribe the inner *)
| QCas | QPush                (* concat.hpp:177-181 *)
| QH1 (r : ref)               (* concat.hpp:85 *)
| QClear (r : ref)            (* concat.hpp:86 *)
| QSub (r : ref)              (* concat.hpp:87 *)
| QH3 (r : ref)               (* concat.hpp:89-90 *)
| QD1 (r : ref) | QD2 (r : ref) | QD3 (r : ref)   (* concat.hpp:54-70 *)
| QI1 (r : ref)               (* concat.hpp:151-160 *)
| QLAdd (d : nat)             (* own disposable of an inner observer (concat), observer.hpp:58 *)
| QLDisp.                     (* its disposal, observer.hpp:122-125 *)

Record qs := QS {
  q_pc : nat -> list qm;
  q_over : bool;                  (* the downstream is disposed *)
  q_st : bool;                    (* the refcount_disposable is disposed *)
  q_kids : list nat;              (* references it holds *)
  q_cnt : option nat;             (* m_refcount; None = s_disposed *)
  q_nref : nat;                   (* references made so far *)
  q_flag : nat -> bool;           (* reference k is disposed *)
  q_rk : nat -> list nat;         (* its children *)
  q_ref : nat -> option ref;      (* the reference source i was given; None = not subscribed *)
  q_last : ref;                   (* switch_on_next.hpp:133: m_last_refcount *)
  q_subs : nat;                   (* inner observables subscribed *)
  q_stage : cstage;               (* concat.hpp:108 *)
  q_queue : nat;                  (* concat.hpp:107: number of waiting observables *)
  q_lf : nat -> bool;             (* own disposable of the observer of source i *)
  q_lu : nat -> list nat
}.

Definition qset {X} (f : nat -> X) (i : nat) (v : X) : nat -> X := fun j => if j =? i then v else f j.
Definition qwith (s : qs) (i : nat) (l : list qm) : qs :=
  QS (qset (q_pc s) i l) (q_over s) (q_st s) (q_kids s) (q_cnt s) (q_nref s) (q_flag s) (q_rk s) (q_ref s) (q_last s)
     (q_subs s) (q_stage s) (q_queue s) (q_lf s) (q_lu s).

Section Ref.
  Variable op : qop.

  (** The inner observers of concat have an own disposable; the others use
      none_disposable_strategy (switch_on_next.hpp:49, 88, concat.hpp:167). *)
  Definition qowns (i : nat) : bool := match op with QSwitch => false | QConcat => negb (i =? 0) end.
  Definition gone (s : qs) (r : ref) : bool := match r with None => true | Some k => q_flag s k end.
  (** is_disposed(): switch_on_next.hpp:77, 119; concat.hpp:135. *)
  Definition qgate (s : qs) (i : nat) (r : ref) : bool := (qowns i && q_lf s i) || gone s r.
  Definition qown (i : nat) (l : list qm) : list qm := if qowns i then l else [].

  (** The strategies' functions: switch_on_next.hpp:56-80, 98-119; concat.hpp:125-190. *)
  Definition qbody (i : nat) (r : ref) (c : qcall) : list qm :=
    match c with
    | UUp d => qown i [QLAdd d] ++ [QRAdd r d]
    | UNext b => if b && negb (i =? 0) then [QDDisp] else []
    | UErr => QDDisp :: qown i [QLDisp]
    | UDone =>
        match op with
        | QSwitch => [QRDisp r; QChk]
        | QConcat => if i =? 0 then [QRDisp r; QChk] else [QI1 r; QLDisp]
        end
    | UInner => if i =? 0 then match op with QSwitch => [QDrop; QAddRef] | QConcat => [QCas] end else []
    | UDisp => [QDDisp]
    end.
  (** Simplification: subscribe() of an inner observable does not throw. *)

  Definition qlab (s : qs) (i : nat) (c : qcall) : list rlab :=
    match c with
    | UErr | UDone => [LTerm i]
    | UInner => if i =? 0 then match op with QSwitch => [LNew (S (q_subs s))] | QConcat => [] end else []
    | _ => []
    end.

  Definition qbegin (s : qs) (i : nat) (c : qcall) : option (qs * list rlab) :=
    match q_pc s i with
    | _ :: _ => None
    | [] =>
        match c, q_ref s i with
        | UDisp, _ => Some (qwith s i [QDDisp], [])
        | _, None => None
        | UUp d, Some r => Some (qwith s i (if qgate s i r then [QRel d] else qbody i r c), [LUp i d])
        | _, Some r => if qgate s i r then Some (s, []) else Some (qwith s i (qbody i r c), qlab s i c)
        end
    end.

  Definition qexec (s : qs) (i : nat) (m : qm) : qs * list qm * list rlab :=
    let '(QS p ov st ks cn nr fl rk rf la su sg qu lf lu) := s in
    match m with
    | QRel d => (s, [], [LRel d])
    | QDDisp => if ov then (s, [], []) else (QS p true st ks cn nr fl rk rf la su sg qu lf lu, [QSDisp], [LOver])
    | QSDisp =>            (* composite_disposable.hpp:41-61, refcount_disposable.hpp:48-51 *)
        if st then (s, [], [])
        else (QS p ov true [] None nr fl rk rf la su sg qu lf lu, map (fun k => QRDisp (Some k)) ks, [])
    | QRDisp None => (s, [], [])
    | QRDisp (Some k) =>   (* refcount_disposable.hpp:81-89, 33-46; the count changes together with
                              the flag (see C11 for the two apart) *)
        if fl k then (s, [], [])
        else (QS p ov st ks (match cn with Some (S (S n)) => Some (S n) | _ => None end) nr (qset fl k true) (qset rk k []) rf la su sg qu lf lu,
              QSRem k :: match cn with Some 1 => [QSDisp] | _ => [] end ++ map QRel (rk k), [])
    | QSRem k =>           (* a reference does not know itself (disposable_wrapper.hpp:137, C71), so that
                              remove() gets an empty wrapper and removes at most entries of destroyed
                              references, which have no effect any more: not modelled *)
        (s, [], [])
    | QRAdd r d =>
        match r with
        | None => (s, [QRel d], [])                        (* disposable_wrapper.hpp:161-169 *)
        | Some k => if fl k then (s, [QRel d], [])
                    else (QS p ov st ks cn nr fl (qset rk k (rk k ++ [d])) rf la su sg qu lf lu, [], [])
        end
    | QAddRef =>
        match cn with
        | None => (s, [match op with QSwitch => QBind None | QConcat => QH1 None end], [])
        | Some n => (QS p ov st ks (Some (S n)) (S nr) fl rk rf la su sg qu lf lu,
                     [QSAdd nr; match op with QSwitch => QBind (Some nr) | QConcat => QH1 (Some nr) end], [])
        end
    | QSAdd k =>           (* composite_disposable.hpp:65-94 *)
        if fl k then (s, [], [])
        else if st then (s, [QRDisp (Some k)], [])
        else (QS p ov st (ks ++ [k]) cn nr fl rk rf la su sg qu lf lu, [], [])
    | QChk => (s, if st then [QDDisp] else [], [])
    | QDrop => (s, [QRDisp la], [])
    | QBind r => (QS p ov st ks cn nr fl rk (qset rf (S su) (Some r)) r (S su) sg qu lf lu, [], [])
    | QCas => if is_none sg then (QS p ov st ks cn nr fl rk rf la su SDrain qu lf lu, [QAddRef], []) else (s, [QPush], [])
    | QPush => (QS p ov st ks cn nr fl rk rf la su sg (S qu) lf lu, [], [])
    | QH1 r => (QS p ov st ks cn nr fl rk rf la su SDrain qu lf lu, [QClear r; QSub r; QH3 r], [])
    | QClear None => (s, [], [])
    | QClear (Some k) =>   (* composite_disposable.hpp:123-148 *)
        if fl k then (s, [], [])
        else (QS p ov st ks cn nr fl (qset rk k []) rf la su sg qu lf lu, map QRel (rk k), [])
    | QSub r => (QS p ov st ks cn nr fl rk (qset rf (S su) (Some r)) la (S su) sg qu lf lu, [], [])
    | QH3 r =>
        match sg with
        | SDrain => (QS p ov st ks cn nr fl rk rf la su SProc qu lf lu, [], [])
        | _ => (s, [QD1 r], [])
        end
    | QD1 r => (s, if st then [] else [QD2 r], [])
    | QD2 r => match qu with
               | 0 => (s, [QD3 r], [])
               | S q => (QS p ov st ks cn nr fl rk rf la su sg q lf lu, [QH1 r], [])
               end
    | QD3 r => (QS p ov st ks cn nr fl rk rf la su SNone qu lf lu, [QRDisp r; QChk], [])
    | QI1 r =>
        match sg with
        | SDrain => (QS p ov st ks cn nr fl rk rf la su SCompl qu lf lu, [], [])
        | _ => (s, [QD1 r], [])
        end
    | QLAdd d => (QS p ov st ks cn nr fl rk rf la su sg qu lf (qset lu i (lu i ++ [d])), [], [])
    | QLDisp => (QS p ov st ks cn nr fl rk rf la su sg qu (qset lf i true) lu, map QRel (lu i), [])
    end.

  Inductive qmove := QBegin (i : nat) (c : qcall) | QStep (i : nat).
  Definition qstep (s : qs) (m : qmove) : qs * list rlab :=
    match m with
    | QBegin i c => match qbegin s i c with Some r => r | None => (s, []) end
    | QStep i =>
        match q_pc s i with
        | [] => (s, [])
        | x :: r => let '(s', l, ls) := qexec s i x in (qwith s' i (l ++ r), ls)
        end
    end.
  Fixpoint qrun (s : qs) (ms : list qmove) : qs * list rlab :=
    match ms with
    | [] => (s, [])
    | m :: r => let '(s1, a) := qstep s m in let '(s2, b) := qrun s1 r in (s2, a ++ b)
    end.

  (** The outer source holds reference 0: switch_on_next.hpp:132, concat.hpp:120-123. *)
  Definition q_init : qs :=
    QS (fun _ => []) false false [0] (Some 1) 1 (fun _ => false) (fun _ => []) (fun i => if i =? 0 then Some (Some 0) else None) None
       0 SNone 0 (fun _ => false) (fun _ => []).
  Definition qquiet (s : qs) : Prop := forall i, q_pc s i = [].
End Ref.
