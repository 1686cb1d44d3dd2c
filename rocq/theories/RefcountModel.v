(** refcount_disposable under interleaving.
    /repo/src/rpp/rpp/disposables/refcount_disposable.hpp:29-116.
    The operations of the underlying composite (add / remove / dispose) are taken as
    atomic at their linearization points (justified by C09_linearizable); disposal of
    the children still happens step by step afterwards.  Simplifications: lifetime of
    the shared objects is not modelled (all locks succeed), the counter does not wrap
    (fewer than 2^64 - 1 references), inner's m_state.remove(wrapper_from_this()) only
    drops the parent's weak entry of an already disposed reference (no effect here). *)
From Verif Require Import Base Concur.

(** m_refcount (65): None is s_disposed; the parent's disposed state and children; the
    references that are disposed; number of references created so far; references
    handed to users. *)
Record rstate := RState {
  r_cnt : option nat; r_dead : bool; r_kids : list nat; r_idead : list nat;
  r_next : nat; r_given : list nat
}.
Definition r_init_state := RState (Some 0) false [] [] 0 [].

Inductive ruser := UAddRef | UDisposeRef (i : nat) | UDispose.

Inductive ritem :=
| RUser (u : ruser)
| RLoad                       (* add_ref: 101 *)
| RTry (v : option nat)       (* 104-108 *)
| RAdd (i : nat)              (* 111 *)
| RGive (i : nat)             (* 112 *)
| RInner (i : nat)            (* inner.dispose(): once, composite_disposable.hpp:49 *)
| RRelLoad (i : nat)          (* release(): 35 *)
| RRelTry (i : nat) (v : option nat)   (* 36-41 *)
| RPDispose                   (* 43: dispose() *)
| RPStore                     (* composite_dispose_impl: 50 *)
| RPLoop (l : list nat)       (* composite_disposable.hpp:53 *)
| RPClear.                    (* composite_disposable.hpp:54 *)

Inductive rlabel :=
| LTake (i : nat)             (* reference i counted *)
| LGive (i : nat)             (* add_ref returned reference i *)
| LEmpty                      (* add_ref returned an empty (already disposed) one *)
| LRef (i : nat)              (* the user called dispose() on reference i *)
| LRelease (i : nat)          (* reference i uncounted *)
| LDirect                     (* the user called dispose() on the refcount itself *)
| LDead.                      (* the refcount became disposed *)

Definition opt_eqb (a b : option nat) : bool :=
  match a, b with
  | None, None => true
  | Some x, Some y => x =? y
  | _, _ => false
  end.
Definition inb (i : nat) (l : list nat) : bool := existsb (Nat.eqb i) l.

Definition set_cnt (s : rstate) c := RState c (r_dead s) (r_kids s) (r_idead s) (r_next s) (r_given s).

Definition r_step (s : rstate) (it : ritem) : option (rstate * list ritem * list rlabel) :=
  match it with
  | RUser UAddRef => Some (s, [RLoad], [])
  | RUser (UDisposeRef i) => (* a user can only dispose a reference that was handed out *)
      if inb i (r_given s) then Some (s, [RInner i], [LRef i]) else Some (s, [], [])
  | RUser UDispose => Some (s, [RPDispose], [LDirect])
  | RLoad => Some (s, [RTry (r_cnt s)], [])
  | RTry None => Some (s, [], [LEmpty])
  | RTry (Some n) =>
      if opt_eqb (r_cnt s) (Some n)
      then Some (RState (Some (n + 1)) (r_dead s) (r_kids s) (r_idead s) (S (r_next s)) (r_given s),
                 [RAdd (r_next s)], [LTake (r_next s)])
      else Some (s, [RTry (r_cnt s)], [])
  | RAdd i =>
      if r_dead s then Some (s, [RInner i; RGive i], [])
      else Some (RState (r_cnt s) (r_dead s) (r_kids s ++ [i]) (r_idead s) (r_next s) (r_given s), [RGive i], [])
  | RGive i => Some (RState (r_cnt s) (r_dead s) (r_kids s) (r_idead s) (r_next s) (i :: r_given s), [], [LGive i])
  | RInner i =>
      if inb i (r_idead s) then Some (s, [], [])
      else Some (RState (r_cnt s) (r_dead s) (r_kids s) (i :: r_idead s) (r_next s) (r_given s), [RRelLoad i], [])
  | RRelLoad i => Some (s, [RRelTry i (r_cnt s)], [])
  | RRelTry i None => Some (s, [], [])
  | RRelTry i (Some n) =>
      if opt_eqb (r_cnt s) (Some n)
      then if n =? 1 then Some (set_cnt s None, [RPDispose], [LRelease i])
           else Some (set_cnt s (Some (n - 1)), [], [LRelease i])
      else Some (s, [RRelTry i (r_cnt s)], [])
  | RPDispose =>
      if r_dead s then Some (s, [], [])
      else Some (RState (r_cnt s) true (r_kids s) (r_idead s) (r_next s) (r_given s),
                 [RPStore; RPLoop (r_kids s); RPClear], [LDead])
  | RPStore => Some (set_cnt s None, [], [])
  | RPLoop [] => Some (s, [], [])
  | RPLoop (i :: r) => Some (s, [RInner i; RPLoop r], [])
  | RPClear => Some (RState (r_cnt s) (r_dead s) [] (r_idead s) (r_next s) (r_given s), [], [])
  end.

Definition r_init (progs : list (list ruser)) : gconfig := (r_init_state, map (map RUser) progs).
