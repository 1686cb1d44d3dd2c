(** create_worker of one thread_pool called by several threads: schedulers/thread_pool.hpp:70-73,
    84 and the non-atomic m_index (88).  [m_index++] is a load and a store; data races are taken
    to behave like some interleaving of these. *)
From Coq Require Import NArith.
From Verif Require Import Base Concur PoolModel.

Inductive pitem :=
| PGet                    (* create_worker is called: the load of m_index *)
| PStore (idx : N).       (* the store of idx + 1, then m_workers[idx % size] *)
(** Label: position of the worker that is returned. *)
Definition pstep (n : N) (s : N) (i : pitem) : option (N * list pitem * list N) :=
  match i with
  | PGet => Some (s, [PStore s], [])
  | PStore idx => let '(p, idx') := pool_get n idx in Some (idx', [], [p])
  end.
(** Thread t calls create_worker [nth t ks] times. *)
Definition p_threads (ks : list nat) : list (list pitem) := map (repeat PGet) ks.
