(** Any number of composite_disposable_impl objects, any of which may be children of others:
    /repo/src/rpp/rpp/disposables/composite_disposable.hpp:29-166.  One shared access
    per step, sequentially consistent.  Simplifications: containers without capacity limit
    (container.hpp:20-58; a limited one is C03, C06); a child is taken out of the list when it
    is disposed and not afterwards (54, 136): nobody can look at the list in between because the
    state is Disposed or Edit; a plain disposable (base_disposable.hpp:36-41) is a composite
    without children. *)
From Verif Require Import Base CompositeModel Concur NetSpec.
Open Scope nat_scope.

Record net := Net { nt_st : nat -> cstate; nt_kids : nat -> list nat }.
Definition put {X} (k : nat) (v : X) (f : nat -> X) : nat -> X := fun i => if i =? k then v else f i.

(** Program points. *)
Inductive nitem :=
| NCall (c : call)
| NAddCas (k j : nat)   (* 74 *)
| NPush (k j : nat)     (* 78 *)
| NErase (k j : nat)    (* 108 *)
| NStore (k : nat)      (* 86, 116, 144 *)
| NKids (k : nat)       (* 53-54 *)
| NClr (k : nat).       (* 135-136 *)

(** None: the compare_exchange found Edit and the loop goes round. *)
Definition nstep (s : net) (it : nitem) : option (net * list nitem * list nat) :=
  match it with
  | NCall (Dispose k) =>                                                       (* 43-61 *)
      match nt_st s k with
      | CNone => Some (Net (put k CDisposed (nt_st s)) (nt_kids s), [NKids k], [k])
      | CEdit => None
      | CDisposed => Some (s, [], [])
      end
  | NKids k =>
      match nt_kids s k with
      | [] => Some (s, [], [])
      | j :: r => Some (Net (nt_st s) (put k r (nt_kids s)), [NCall (Dispose j); NKids k], [])
      end
  | NCall (Add k j) =>                                                         (* 67-68 *)
      match nt_st s j with
      | CDisposed => Some (s, [], [])
      | _ => if j =? k then Some (s, [], []) else Some (s, [NAddCas k j], [])
      end
  | NAddCas k j =>                                                             (* 70-95 *)
      match nt_st s k with
      | CNone => Some (Net (put k CEdit (nt_st s)) (nt_kids s), [NPush k j], [])
      | CEdit => None
      | CDisposed => Some (s, [NCall (Dispose j)], [])
      end
  | NPush k j => Some (Net (nt_st s) (put k (nt_kids s k ++ [j]) (nt_kids s)), [NStore k], [])
  | NCall (Remove k j) =>                                                      (* 98-123 *)
      match nt_st s k with
      | CNone => Some (Net (put k CEdit (nt_st s)) (nt_kids s), [NErase k j], [])
      | CEdit => None
      | CDisposed => Some (s, [], [])
      end
  | NErase k j => Some (Net (nt_st s) (put k (filter (fun x => negb (x =? j)) (nt_kids s k)) (nt_kids s)), [NStore k], [])
  | NCall (Clear k) =>                                                         (* 125-151 *)
      match nt_st s k with
      | CNone => Some (Net (put k CEdit (nt_st s)) (nt_kids s), [NClr k], [])
      | CEdit => None
      | CDisposed => Some (s, [], [])
      end
  | NClr k =>
      match nt_kids s k with
      | [] => Some (s, [NStore k], [])
      | j :: r => Some (Net (nt_st s) (put k r (nt_kids s)), [NCall (Dispose j); NClr k], [])
      end
  | NStore k => Some (Net (put k CNone (nt_st s)) (nt_kids s), [], [])
  end.

(** Every thread has its own program of calls. *)
Definition n_init (progs : list (list call)) : net * list (list nitem) :=
  (Net (fun _ => CNone) (fun _ => []), map (map NCall) progs).

(** Executions of n steps. *)
Inductive nruns : net * list (list nitem) -> nat -> net * list (list nitem) -> Prop :=
| nruns_0 : forall c, nruns c 0 c
| nruns_S : forall c n c1 ls c2, nruns c n c1 -> gstep nstep c1 ls c2 -> nruns c (S n) c2.
