(** The concat operator: /repo/src/rpp/rpp/operators/concat.hpp.
    Every source is a thread of its own, and every atomic access is a step; what happens
    under a mutex (the queue, the downstream observer) is one step.  Events that arrive
    while subscribe() is running are the schedule in which the subscribing thread pauses. *)
From Verif Require Import Base Machine Concur MultiSpec.

(** concat.hpp:28-34 *)
Inductive cstage := SNone | SDrain | SCompl | SProc.
Definition is_none (s : cstage) : bool := match s with SNone => true | _ => false end.

Section Concat.
  Context {V : Type} (D : machine V).

  Record cst := CS {
    c_stage : cstage;                     (* m_stage, concat.hpp:108 *)
    c_queue : list nat;                   (* m_queue, 107: numbers of the observables *)
    c_arr : nat;                          (* observables received so far *)
    c_subs : list (nat * option nat);     (* subscribed observables with the reference given to them; None = empty wrapper *)
    c_outer : bool;                       (* the outer strategy's own reference is alive, 118-121 *)
    c_refs : list nat;                    (* references given to the inner side that are alive *)
    c_nref : nat;
    c_ended : list nat;                   (* inner observers that disposed themselves *)
    c_late : bool;                        (* ghost: the queue was not empty while the stage was None *)
    c_down : mst D
  }.

  (** refcount_disposable::is_disposed: no reference is left, or the downstream disposed it
      (it is the downstream's upstream, concat.hpp:45).  Simplification: the downstream's
      disposal is seen at once. *)
  Definition m_disposed (g : cst) : bool :=
    (negb (c_outer g) && match c_refs g with [] => true | _ => false end) || mdisp D (c_down g).
  Definition gone (g : cst) (r : option nat) : bool :=
    match r with None => true | Some x => negb (existsb (Nat.eqb x) (c_refs g)) end || m_disposed g.
  Definition ref_of (g : cst) (i : nat) : option (option nat) :=
    match find (fun x => fst x =? i) (c_subs g) with Some x => Some (snd x) | None => None end.

  Definition with_stage (g : cst) (s : cstage) : cst :=
    CS s (c_queue g) (c_arr g) (c_subs g) (c_outer g) (c_refs g) (c_nref g) (c_ended g)
       (c_late g || (is_none s && match c_queue g with [] => false | _ => true end)) (c_down g).

  Inductive cpc :=
  | K0                                  (* is_disposed() of the observer *)
  | KCas                                (* 177-178: compare_exchange None -> Draining *)
  | KPush                               (* 181 *)
  | KRef (x : nat)                      (* 179: add_ref *)
  | KH1 (x : nat) (r : option nat)      (* 85: stage = Draining *)
  | KH2 (x : nat) (r : option nat)      (* 86-87: clear, subscribe *)
  | KH3 (r : option nat)                (* 89-90: compare_exchange Draining -> Processing *)
  | KD1 (r : option nat)                (* 56: while (!is_disposed()) *)
  | KD2 (r : option nat)                (* 58: get_observable *)
  | KD3 (r : option nat)                (* 61: stage = None *)
  | KD4 (r : option nat)                (* 62: refcounted.dispose() *)
  | KD5                                 (* 63, 187: is_disposed() *)
  | KD6                                 (* 64, 188: on_completed() *)
  | KOut (p : ev V)                     (* 136, 148: observer->on_next / on_error *)
  | KI1                                 (* 153-155: compare_exchange Draining -> CompletedWhileDraining *)
  | KOd                                 (* 186: refcounted.dispose() of the outer *)
  | KFin.                               (* the inner observer disposes itself, observer.hpp:120-144 *)

  Definition cstep (g : cst) (i : nat) (e : ev (unit + V)) (k : cpc) : option (cst * option cpc) :=
    match k with
    | K0 =>                                             (* 143, observer.hpp:74-77 *)
        if i =? 0 then
          if negb (c_outer g) || m_disposed g then Some (g, None)
          else match e with
               | Next (inl _) => Some (g, Some KCas)
               | Next (inr _) => Some (g, Some KFin)
               | Err x => Some (g, Some (KOut (Err x)))
               | Done => Some (g, Some KOd)
               end
        else match ref_of g i with
             | None => None                             (* not subscribed yet *)
             | Some r =>
                 if existsb (Nat.eqb i) (c_ended g) || gone g r then Some (g, None)
                 else match e with
                      | Next (inr v) => Some (g, Some (KOut (Next v)))
                      | Next (inl _) => Some (g, Some KFin)
                      | Err x => Some (g, Some (KOut (Err x)))
                      | Done => Some (g, Some KI1)
                      end
             end
    | KCas =>
        if is_none (c_stage g)
        then Some (CS SDrain (c_queue g) (S (c_arr g)) (c_subs g) (c_outer g) (c_refs g) (c_nref g) (c_ended g) (c_late g) (c_down g),
                   Some (KRef (S (c_arr g))))
        else Some (g, Some KPush)
    | KPush =>
        Some (CS (c_stage g) (c_queue g ++ [S (c_arr g)]) (S (c_arr g)) (c_subs g) (c_outer g) (c_refs g) (c_nref g) (c_ended g)
                 (c_late g || is_none (c_stage g)) (c_down g), Some KFin)
    | KRef x =>                                         (* refcount_disposable.hpp:98-117 *)
        if m_disposed g then Some (g, Some (KH1 x None))
        else Some (CS (c_stage g) (c_queue g) (c_arr g) (c_subs g) (c_outer g) (c_nref g :: c_refs g) (S (c_nref g)) (c_ended g) (c_late g) (c_down g),
                   Some (KH1 x (Some (c_nref g))))
    | KH1 x r => Some (with_stage g SDrain, Some (KH2 x r))
    | KH2 x r =>
        Some (CS (c_stage g) (c_queue g) (c_arr g) (c_subs g ++ [(x, r)]) (c_outer g) (c_refs g) (c_nref g) (c_ended g) (c_late g) (c_down g),
              Some (KH3 r))
    | KH3 r =>
        match c_stage g with
        | SDrain => Some (with_stage g SProc, Some KFin)
        | _ => Some (g, Some (KD1 r))
        end
    | KD1 r => if m_disposed g then Some (g, Some KFin) else Some (g, Some (KD2 r))
    | KD2 r =>
        match c_queue g with
        | [] => Some (g, Some (KD3 r))
        | x :: q => Some (CS (c_stage g) q (c_arr g) (c_subs g) (c_outer g) (c_refs g) (c_nref g) (c_ended g) (c_late g) (c_down g),
                          Some (KH1 x r))
        end
    | KD3 r => Some (with_stage g SNone, Some (KD4 r))
    | KD4 r =>
        Some (CS (c_stage g) (c_queue g) (c_arr g) (c_subs g) (c_outer g)
                 (match r with Some x => filter (fun y => negb (y =? x)) (c_refs g) | None => c_refs g end)
                 (c_nref g) (c_ended g) (c_late g) (c_down g), Some KD5)
    | KD5 => if m_disposed g then Some (g, Some KD6) else Some (g, Some KFin)
    | KD6 =>
        Some (CS (c_stage g) (c_queue g) (c_arr g) (c_subs g) (c_outer g) (c_refs g) (c_nref g) (c_ended g) (c_late g) (mstep D (c_down g) Done),
              Some KFin)
    | KOut p =>
        Some (CS (c_stage g) (c_queue g) (c_arr g) (c_subs g) (c_outer g) (c_refs g) (c_nref g) (c_ended g) (c_late g) (mstep D (c_down g) p),
              Some KFin)
    | KI1 =>
        match c_stage g with
        | SDrain => Some (with_stage g SCompl, Some KFin)
        | _ =>                                          (* 157: assert(current == Processing) *)
            match ref_of g i with Some r => Some (g, Some (KD1 r)) | None => None end
        end
    | KOd =>
        Some (CS (c_stage g) (c_queue g) (c_arr g) (c_subs g) false (c_refs g) (c_nref g) (c_ended g) (c_late g) (c_down g), Some KD5)
    | KFin =>
        Some (CS (c_stage g) (c_queue g) (c_arr g) (c_subs g) (c_outer g) (c_refs g) (c_nref g)
                 (if is_term e && negb (i =? 0) then i :: c_ended g else c_ended g) (c_late g) (c_down g), None)
    end.

  Definition c_init (d : mst D) : cst := CS SNone [] 0 [] true [] 0 [] false d.
End Concat.
