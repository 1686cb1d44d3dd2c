(** Sources: rpp/sources/from.hpp (from_iterable, just), empty.hpp, error.hpp, never.hpp,
    interval.hpp, and rpp/operators/subscribe_on.hpp.

    The observer is a machine; other threads may dispose it between any two steps.  A worker
    runs a schedulable as established by C14-C18: when it picks it, it drops it if the handler
    is disposed, else calls it, and puts it back if it asks for it.  A container is the list of
    its elements; reading one may throw ([Throw]).  Increment and comparison of iterators do not
    throw. *)
From Coq Require Import ZArith.
From Verif Require Import Base Machine Concur SrcSpec.

Section Src.
  Context {A : Type} (D : machine A).

  Inductive source :=
  | FromImm (l : list (res A))     (* from_iterable with schedulers::immediate *)
  | FromSched (l : list (res A))   (* from_iterable with another scheduler *)
  | Empty | Never | Error (e : exn)
  | Interval (mk : nat -> A) (t p : Z)   (* mk embeds size_t into the type of the values *)
  | SubscribeOn (s : source).      (* subscribe_on with any scheduler but immediate *)

  Inductive item :=
  | IKill                                          (* dispose() by another thread *)
  | ISub (s : source)                              (* strategy.subscribe(observer) *)
  | IIter (l : list (res A)) (i : nat)             (* from.hpp:107 it != end *)
  | IChk (v : A) (l : list (res A)) (i : nat)      (* 109-110 is_disposed *)
  | INext (v : A) (l : list (res A)) (i : nat)     (* 112 on_next *)
  | IEv (e : ev A)                                 (* on_completed / on_error *)
  | IPick (l : list (res A)) (i : nat)             (* the worker picks from_iterable_schedulable *)
  | ICall (l : list (res A)) (i : nat)             (* 58-60 iterators advanced by index; 62-64 *)
  | ISend (v : A) (l : list (res A)) (i : nat)     (* 64 on_next *)
  | IMore (l : list (res A)) (i : nat)             (* 65-69 *)
  | ITick (mk : nat -> A) (t p : Z) (n : nat)      (* the worker picks interval_schedulable *)
  | ITickRun (mk : nat -> A) (t p : Z) (n : nat)   (* interval.hpp:21-25 *)
  | IPickSub (s : source).                         (* the worker picks subscribe_on_schedulable *)

  Definition sstep (d : mst D) (i : item) : option (mst D * list item * list slab) :=
    match i with
    | IKill => Some (mkill D d, [], [LKill])
    | ISub (FromImm l) => Some (d, [IIter l 0], [])
    | ISub (FromSched l) => Some (d, [IPick l 0], [])          (* from.hpp:124-125 *)
    | ISub Empty => Some (d, [IEv Done], [])                   (* empty.hpp:25 *)
    | ISub Never => Some (d, [], [])                           (* never.hpp:24 *)
    | ISub (Error e) => Some (d, [IEv (Err e)], [])            (* error.hpp:26 *)
    | ISub (Interval mk t p) => Some (d, [ITick mk t p 0], []) (* interval.hpp:38-43 *)
    | ISub (SubscribeOn s) => Some (d, [IPickSub s], [])       (* subscribe_on.hpp:50-54 *)
    | IIter [] i => Some (d, [IEv Done], [])                   (* 115 *)
    | IIter (Ok v :: r) i => Some (d, [IChk v r i], [LGet i])
    | IIter (Throw e :: r) i => Some (d, [IEv (Err e)], [LGet i])   (* 117-120 *)
    | IChk v r i => if mdisp D d then Some (d, [], []) else Some (d, [INext v r i], [])
    | INext v r i => Some (mstep D d (Next v), [IIter r (S i)], [])
    | IEv e => Some (mstep D d e, [], [])
    | IPick l i => if mdisp D d then Some (d, [], []) else Some (d, [ICall l i], [])
    | ICall l i => match nth_error l i with
                   | None => Some (d, [IEv Done], [])                      (* 72 *)
                   | Some (Ok v) => Some (d, [ISend v l i], [LGet i])
                   | Some (Throw e) => Some (d, [IEv (Err e)], [LGet i])   (* 74-77 *)
                   end
    | ISend v l i => Some (mstep D d (Next v), [IMore l i], [])
    | IMore l i => if S i <? length l then Some (d, [IPick l (S i)], []) else Some (d, [IEv Done], [])
    | ITick mk t p n => if mdisp D d then Some (d, [], []) else Some (d, [ITickRun mk t p n], [])
    | ITickRun mk t p n => Some (mstep D d (Next (mk n)), [ITick mk (t + p)%Z p (S n)], [LTick t n])
    | IPickSub s => if mdisp D d then Some (d, [], []) else Some (d, [ISub s], [])   (* 27-32 *)
    end.

  (** One thread runs the source, [k] others dispose the observer. *)
  Definition src_start (s : source) (d0 : mst D) (k : nat) : mst D * list (list item) :=
    (d0, [ISub s] :: repeat [IKill] k).
End Src.
Arguments item A : clear implicits.
Arguments source A : clear implicits.
