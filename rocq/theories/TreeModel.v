(** Expressions of operators as one concurrent program: the observer of an operator's
    source is the downstream observer of the operator below it, and a call into it is
    made while the operator below holds its mutex
    (/repo/src/rpp/rpp/utils/utils.hpp:259-311, pointer_under_lock lives until the end of
    the full expression get_observer_under_lock()->on_next(...)).
    merge: /repo/src/rpp/rpp/operators/merge.hpp:39-190; zip.hpp:40-75;
    combine_latest.hpp:40-75; with_latest_from.hpp:60-167; take_until.hpp:45-149. *)
From Verif Require Import Base Machine Concur ObserverModel MultiSpec MultiModel OpsModel ChainSpec ChainModel TreeSpec.
Open Scope nat_scope.

(** The place of an operator in an expression: the source number on each level, innermost
    first; [] is the last operator. *)
Definition path := list nat.
Definition path_dec : forall a b : path, {a = b} + {a <> b} := list_eq_dec Nat.eq_dec.

(** One operator with its downstream as far as it belongs to it: the chain behind it, ending
    in a record of what has been passed on. *)
Record node (V : Type) := Node {
  nd_op : mop V V;
  nd_D : machine V;
  nd_d0 : mst nd_D;
  nd_log : mst nd_D -> list (ev V)
}.
Arguments nd_op {V} n.
Arguments nd_D {V} n.
Arguments nd_d0 {V} n.
Arguments nd_log {V} n d.

Section Tree.
  Context {V : Type} (N : path -> node V).
  Notation op p := (nd_op (N p)).
  Notation DD p := (nd_D (N p)).
  (** Whether call number k made from place q still sees the old is_disposed() of the
      downstream (see gate in MultiModel.v). *)
  Variable stale : path -> nat -> bool.

  Inductive titem := TI (p : path) (x : item (op p)).
  Definition tstate := forall p, gs (op p) (DD p).

  Definition put (s : tstate) (p : path) (g : gs (op p) (DD p)) : tstate :=
    fun q => match path_dec p q with
             | left E => match E in _ = r return gs (op r) (DD r) with eq_refl => g end
             | right _ => s q
             end.

  Definition said (s : tstate) (p : path) : list (ev V) := nd_log (N p) (g_down (s p)).

  (** The calls numbered from k on, made from place i :: p: on the observer of source i of
      the operator at p. *)
  Fixpoint calls (i : nat) (p : path) (k : nat) (l : list (ev V)) : list titem :=
    match l with
    | [] => []
    | e :: r => TI p (IEv i e (stale (i :: p) k)) :: calls i p (S k) r
    end.

  (** The last operator's downstream is the subscriber and not part of the program. *)
  Definition above (p : path) (k : nat) (l : list (ev V)) : list titem :=
    match p with [] => [] | i :: p' => calls i p' k l end.

  Definition tstep (s : tstate) (x : titem) : option (tstate * list titem * list (path * lab V)) :=
    match x with
    | TI p y =>
        match istep (op p) (DD p) (fun _ => []) (s p) y with
        | Some (g, its, ls) =>
            let s' := put s p g in
            let old := length (said s p) in
            Some (s', above p old (skipn old (said s' p)) ++ map (TI p) its, map (pair p) ls)
        | None => None
        end
    end.

  Definition t_init : tstate := fun p => g_init (op p) (DD p) (nd_d0 (N p)).
End Tree.
Arguments TI {V N} p x.

(** merge_with (merge.hpp:165-190) after its subscription: n sources subscribed, the
    outer strategy completed, so n completions are outstanding. *)
Definition merge_with_op (V : Type) (n : nat) : mop V V :=
  MOp V V merge_s (ev V)
    (MergeS n n)
    (fun _ i => i <? n)
    (fun _ => true) (fun _ _ => false) false
    (fun m s i e => mo_pre (merge_op V) m s (S i) (match e with Next v => Next (inr v) | Err x => Err x | Done => Done end))
    (mo_body (merge_op V))
    (fun x => Err x).

(** The selector of zip gets the values (moved-from ones cannot occur when it does not
    throw, MultiModel.v). *)
Definition taken {V} (l : list (option V)) : list V := flat_map (fun x => match x with Some v => [v] | None => [] end) l.

Definition kind_op {V} (k : kind V) (n : nat) : mop V V :=
  match k with
  | KMerge => merge_with_op V n
  | KZip f => zip_op n (fun l => Ok (f (taken l)))
  | KCombine f => combine_latest_op n (fun l => Ok (f l))
  | KWithLatest f => with_latest_op (n - 1) (fun v l => Ok (f v l))
  | KTakeUntil => take_until_op V
  end.

(** The observer of an operator's source hides what happens behind it: it never throws and
    does not unsubscribe by itself. *)
Definition record_of (V : Type) : machine V := leaf (fun _ _ => RCont).

Section Expression.
  Context {V : Type} (T : tree V) (F : machine V) (f0 : mst F).
  (** The subtree at a place. *)
  Fixpoint sub (p : path) : option (tree V) :=
    match p with
    | [] => Some T
    | i :: q => match sub q with Some (Op _ _ ts) => nth_error ts i | _ => None end
    end.
  (** The operator at a place; the last one has the subscriber F behind its chain. *)
  Definition node_at (p : path) : node V :=
    match p, sub p with
    | [], Some (Op k c ts) => Node V (kind_op k (length ts)) (build c F) (build_init c F f0) (fun _ => [])
    | _ :: _, Some (Op k c ts) => Node V (kind_op k (length ts)) (build c (record_of V)) (build_init c (record_of V) o_init) (fun d => o_log (bottom c (record_of V) d))
    | _, _ => Node V (merge_with_op V 0) (record_of V) o_init (fun d => o_log d)
    end.
End Expression.

(** The places of the sources, in order. *)
Fixpoint places {V} (p : path) (t : tree V) : list (path * list (ev V)) :=
  match t with
  | Src l => [(p, l)]
  | Op _ _ ts => (fix all i ts := match ts with [] => [] | t :: r => places (i :: p) t ++ all (S i) r end) 0 ts
  end.

(** Every source is a thread of its own.  Simplifications: all sources are subscribed
    before the first one emits; an operator whose downstream is over may go on computing
    (nobody hears it) as if the news had not reached it yet. *)
Definition source_thread {V} (N : path -> node V) (stale : path -> nat -> bool) (s : path * list (ev V)) : list (titem N) :=
  match fst s with [] => [] | i :: p => calls N stale i p 0 (snd s) end.
Definition start {V} (T : tree V) (F : machine V) (f0 : mst F) (stale : path -> nat -> bool) : tstate (node_at T F f0) * list (list (titem (node_at T F f0))) :=
  (t_init (node_at T F f0), map (source_thread (node_at T F f0) stale) (places [] T)).
(** The subscriber. *)
Definition subscriber {V} (k : kind V) (c : chain V V) ts (F : machine V) (f0 : mst F) (s : tstate (node_at (Op k c ts) F f0)) : mst F :=
  bottom c F (g_down (s [])).
