(** schedulables_queue: a singly linked list of heap nodes.
    /repo/src/rpp/rpp/schedulers/details/queue.hpp:84-93, 220-283.  Node i of the heap is
    the schedulable number i.  shared_ptr ownership and the optional mutex (253-260) are
    not modelled: every operation is atomic. *)
From Coq Require Import ZArith.
From Verif Require Import Base QueueSpec.
Open Scope Z_scope.

(** 112-113. *)
Record node := Node { n_next : option nat; n_tp : Z }.
Record pqueue := PQ { p_heap : list node; p_head : option nat }.

Fixpoint set_nth (l : list node) (i : nat) (x : node) : list node :=
  match l, i with
  | [], _ => []
  | _ :: r, O => x :: r
  | y :: r, S j => y :: set_nth r j x
  end.
(** 86. *)
Definition set_next (h : list node) (i : nat) (nx : option nat) : list node :=
  match nth_error h i with Some n => set_nth h i (Node nx (n_tp n)) | None => h end.
(** 82. *)
Definition set_timepoint (h : list node) (i : nat) (tp : Z) : list node :=
  match nth_error h i with Some n => set_nth h i (Node (n_next n) tp) | None => h end.

(** 270-275: the node after which to insert. *)
Fixpoint walk (fuel : nat) (h : list node) (tp : Z) (current : nat) : option nat :=
  match fuel with
  | O => None
  | S f =>
      match nth_error h current with
      | Some n =>
          match n_next n with
          | Some nx => match nth_error h nx with
                       | Some m => if tp <? n_tp m then Some current else walk f h tp nx
                       | None => None
                       end
          | None => Some current
          end
      | None => None
      end
  end.

(** 250-278; None: dangling pointer or endless loop. *)
Definition emplace_impl (q : pqueue) (i : nat) : option pqueue :=
  match nth_error (p_heap q) i with
  | None => None
  | Some s =>
      match p_head q with
      | None => Some (PQ (set_next (p_heap q) i None) (Some i))
      | Some hd =>
          match nth_error (p_heap q) hd with
          | None => None
          | Some hn =>
              if n_tp s <? n_tp hn then Some (PQ (set_next (p_heap q) i (Some hd)) (Some i))
              else match walk (length (p_heap q)) (p_heap q) (n_tp s) hd with
                   | None => None
                   | Some cur =>
                       (* update_next, 88-93 *)
                       match nth_error (p_heap q) cur with
                       | Some c => Some (PQ (set_next (set_next (p_heap q) i (n_next c)) cur (Some i)) (p_head q))
                       | None => None
                       end
                   end
          end
      end
  end.

(** 221-226. *)
Definition q_new (q : pqueue) (tp : Z) : option pqueue :=
  emplace_impl (PQ (p_heap q ++ [Node None tp]) (p_head q)) (length (p_heap q)).
(** 228-235. *)
Definition q_again (q : pqueue) (i : nat) (tp : Z) : option pqueue :=
  if (i <? length (p_heap q))%nat then emplace_impl (PQ (set_timepoint (p_heap q) i tp) (p_head q)) i else None.
(** 239-242. *)
Definition q_pop (q : pqueue) : option (nat * pqueue) :=
  match p_head q with
  | Some hd => match nth_error (p_heap q) hd with Some n => Some (hd, PQ (p_heap q) (n_next n)) | None => None end
  | None => None
  end.
(** 237. *)
Definition q_is_empty (q : pqueue) : bool := match p_head q with None => true | _ => false end.

Definition q_op (st : option (pqueue * list nat)) (o : qop) : option (pqueue * list nat) :=
  match st with
  | None => None
  | Some (q, out) =>
      match o with
      | QNew tp => match q_new q tp with Some q' => Some (q', out) | None => None end
      | QAgain i tp => match q_again q i tp with Some q' => Some (q', out) | None => None end
      | QPop => match q_pop q with Some (i, q') => Some (q', out ++ [i]) | None => None end
      end
  end.
Definition q_run (ops : list qop) := fold_left q_op ops (Some (PQ [] None, [])).
