(** thread_pool.  /repo/src/rpp/rpp/schedulers/thread_pool.hpp:70-90.
    Only which of the pool's new_thread workers a created worker shares (every task of it
    goes to that one, 40-58); size_t of 64 bits; create_worker called on one thread
    (m_index is not atomic). *)
From Coq Require Import NArith List.
Import ListNotations.
Open Scope N_scope.

Definition size_t_range : N := 2 ^ 64.
(** 75-81: number of workers made by the constructor. *)
Definition pool_size (n : N) : N := N.max 1 n.
(** 83: get(); state m_index, result the position in m_workers. *)
Definition pool_get (n idx : N) : N * N := (idx mod pool_size n, (idx + 1) mod size_t_range).
(** k calls of create_worker: positions. *)
Fixpoint pool_workers (n idx : N) (k : nat) : list N :=
  match k with
  | O => []
  | S j => let '(p, idx') := pool_get n idx in p :: pool_workers n idx' j
  end.
(** Position after i calls, without the list (i may be large). *)
Definition pool_index (i : N) : N := N.iter i (fun idx => snd (pool_get 1 idx)) 0.
