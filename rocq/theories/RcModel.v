(** ref_count: /repo/src/rpp/rpp/observables/connectable_observable.hpp:21-61, connect 100-115,
    with refcount_disposable.hpp (release, add_ref).  Any number of threads that subscribe and
    unsubscribe.  Simplifications: the source emits nothing and does not end (events: see
    ConnModel); nobody calls connect() directly. *)
From Verif Require Import Base Concur RcSpec.

(** A refcount_disposable. *)
Record wr := WR {
  w_cnt : option nat;    (* m_refcount; None: s_disposed *)
  w_flag : bool;         (* composite_disposable: is_disposed() *)
  w_src : bool           (* holds a subscription of the source *)
}.
Record kst := KS {
  k_w : list wr;
  k_cur : option nat;    (* ref_count's m_state->disposable: 32 *)
  k_mtx : bool;          (* ref_count's m_state->mutex: 31 *)
  k_conn : option nat    (* connectable's m_state->disposable *)
}.
Inductive kitem :=
| RJoin                                    (* 43, 54-55 *)
| RRef (k : nat)                           (* 56, mutex held *)
| RSubj (own up : option nat)              (* 45-46 *)
| RCheck (k : nat)                         (* 47 *)
| RConn (k : nat)                          (* 48, 102-111 *)
| RSrc (k : nat)                           (* 113, observable.hpp:110-113 *)
| RStay (own : option nat)                 (* subscribed *)
| RRel (k : nat)                           (* unsubscription: refcount_disposable.hpp release *)
| RFlag (k : nat)                          (* release: dispose() *)
| RKids (k : nat)                          (* dispose(): the children *)
| ROut.                                    (* unsubscription: leaves the subject *)

Definition wget (s : kst) (k : nat) : wr := nth k (k_w s) (WR None true false).
Fixpoint wset (l : list wr) (k : nat) (w : wr) : list wr :=
  match l, k with [], _ => [] | _ :: r, 0 => w :: r | x :: r, S k => x :: wset r k w end.
Definition put (s : kst) (k : nat) (w : wr) : kst := KS (wset (k_w s) k w) (k_cur s) (k_mtx s) (k_conn s).
Definition gone (s : kst) (k : option nat) : bool := match k with Some k => w_flag (wget s k) | None => true end.

Definition kstep (s : kst) (i : kitem) : option (kst * list kitem * list rlab) :=
  match i with
  | RJoin =>
      if k_mtx s then None
      else match k_cur s with
           | Some k =>
               if w_flag (wget s k)
               then let n := length (k_w s) in Some (KS (k_w s ++ [WR (Some 1) false false]) (Some n) false (k_conn s), [RSubj (Some n) (Some n)], [])
               else Some (KS (k_w s) (k_cur s) true (k_conn s), [RRef k], [])
           | None => let n := length (k_w s) in Some (KS (k_w s ++ [WR (Some 1) false false]) (Some n) false (k_conn s), [RSubj (Some n) (Some n)], [])
           end
  | RRef k =>
      match w_cnt (wget s k) with
      | Some n => Some (KS (wset (k_w s) k (WR (Some (S n)) (w_flag (wget s k)) (w_src (wget s k)))) (k_cur s) false (k_conn s), [RSubj (Some k) None], [])
      | None => Some (KS (k_w s) (k_cur s) false (k_conn s), [RSubj None None], [])
      end
  | RSubj own up => Some (s, match up with Some k => [RCheck k] | None => [RStay own] end, [LIn])
  | RCheck k => Some (s, if w_flag (wget s k) then [RStay (Some k)] else [RConn k], [])
  | RConn k =>
      if gone s (k_conn s) then Some (KS (k_w s) (k_cur s) (k_mtx s) (Some k), [RSrc k], [])
      else Some (s, [RStay (Some k)], [])
  | RSrc k =>
      if w_flag (wget s k) then Some (s, [RStay (Some k)], [])
      else Some (put s k (WR (w_cnt (wget s k)) false true), [RStay (Some k)], [LOn k])
  | RStay own => Some (s, match own with Some k => [RRel k; ROut] | None => [ROut] end, [])
  | RRel k =>
      match w_cnt (wget s k) with
      | Some 1 => Some (put s k (WR None (w_flag (wget s k)) (w_src (wget s k))), [RFlag k], [])
      | Some n => Some (put s k (WR (Some (n - 1)) (w_flag (wget s k)) (w_src (wget s k))), [], [])
      | None => Some (s, [], [])
      end
  | RFlag k => Some (put s k (WR (w_cnt (wget s k)) true (w_src (wget s k))), [RKids k], [LOff k])
  | RKids k => Some (put s k (WR (w_cnt (wget s k)) true false), [], if w_src (wget s k) then [LFree k] else [])
  | ROut => Some (s, [], [LOut])
  end.
Definition k_init : kst := KS [] None false None.
(** Every thread subscribes and unsubscribes a number of times. *)
Definition k_threads (rounds : list nat) : list (list kitem) := map (fun n => repeat RJoin n) rounds.
