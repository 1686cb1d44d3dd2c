(** Operators with several sources stacked on each other (C82): what a whole expression
    of operators may deliver. *)
From Verif Require Import Base MultiSpec ChainSpec.
Open Scope nat_scope.

(** The operators with a fixed number of sources; selectors do not throw. *)
Inductive kind (V : Type) :=
| KMerge
| KZip (f : list V -> V)
| KCombine (f : list V -> V)
| KWithLatest (f : V -> list V -> V)
| KTakeUntil.
Arguments KMerge {V}.
Arguments KZip {V} f.
Arguments KCombine {V} f.
Arguments KWithLatest {V} f.
Arguments KTakeUntil {V}.

(** An expression: a source that pushes the given events, or an operator applied to
    expressions and followed by a chain of single-source operators. *)
Inductive tree (V : Type) :=
| Src (p : list (ev V))
| Op (k : kind V) (c : chain V V) (ts : list (tree V)).
Arguments Src {V} p.
Arguments Op {V} k c ts.

(** merge of n sources known from the start. *)
Definition merge_with_out {V} (n : nat) (past : hist V) (i : nat) (e : ev V) : list (ev V) :=
  match e with
  | Next v => [Next v]
  | Err x => [Err x]
  | Done => if all_done n (past ++ [(i, e)]) then [Done] else []
  end.

(** What operator k with n sources makes out of one event, given what was before. *)
Definition kind_out {V} (k : kind V) (n : nat) : hist V -> nat -> ev V -> list (ev V) :=
  match k with
  | KMerge => merge_with_out n
  | KZip f => zip_out n (fun l => Ok (f l))
  | KCombine f => combine_latest_out n (fun l => Ok (f l))
  | KWithLatest f => with_latest_out (n - 1) (fun v l => Ok (f v l))
  | KTakeUntil => take_until_out
  end.

(** h is an order of the events of the streams that keeps the order of each. *)
Definition shuffle {V} (ins : list (list (ev V))) (h : hist V) : Prop :=
  forall i, map snd (filter (fun x => fst x =? i) h) = nth i ins [].

(** A stream up to its first terminal event: what an observer hears. *)
Definition heard {V} (l : list (ev V)) : list (ev V) := map Next (vals l) ++ term_list l.

(** Possible results of an expression: every operator sees the results of its sources in
    some order, and does what its own meaning says. *)
Inductive result {V} : tree V -> list (ev V) -> Prop :=
| RSrc : forall p, result (Src p) p
| ROp : forall k c ts ins h, results ts ins -> shuffle ins h ->
    result (Op k c ts) (heard (chain_spec c (outs (kind_out k (length ts)) h)))
with results {V} : list (tree V) -> list (list (ev V)) -> Prop :=
| RNil : results [] []
| RCons : forall t ts l ls, result t l -> results ts ls -> results (t :: ts) (l :: ls).

(** take_until has two sources; a chain says nothing before it is given something
    (scan with a seed is left out). *)
Fixpoint proper {V} (t : tree V) : Prop :=
  match t with
  | Src _ => True
  | Op k c ts =>
      match k with KTakeUntil => length ts <= 2 | _ => True end /\ chain_spec c [] = [] /\
      (fix all ts := match ts with [] => True | t :: r => proper t /\ all r end) ts
  end.

(** The events of all sources of an expression. *)
Fixpoint sources {V} (t : tree V) : list (list (ev V)) :=
  match t with
  | Src p => [p]
  | Op _ _ ts => (fix all ts := match ts with [] => [] | t :: r => sources t ++ all r end) ts
  end.

(** The calls made so far on the observer that an operator (at place p: the number of the
    source on every level, innermost first) has for its source i. *)
Definition calls_on {V} (p : list nat) (i : nat) (tr : list (list nat * lab V)) : list (lab V) :=
  flat_map (fun x => if list_eq_dec Nat.eq_dec (fst x) p then match snd x with Inv j e | Ret j e => if j =? i then [snd x] else [] end else []) tr.

(** One call after the other, with these events. *)
Definition one_by_one {V} (i : nat) (es : list (ev V)) : list (lab V) := flat_map (fun e => [Inv i e; Ret i e]) es.

(** The expression at a place. *)
Fixpoint subterm {V} (t : tree V) (p : list nat) : option (tree V) :=
  match p with
  | [] => Some t
  | i :: q => match subterm t q with Some (Op _ _ ts) => nth_error ts i | _ => None end
  end.

(** The lists ls put into one, keeping the order of each. *)
Inductive weaves {X} : list (list X) -> list X -> Prop :=
| WNil : forall ls, Forall (fun l => l = []) ls -> weaves ls []
| WCons : forall a x l b w, weaves (a ++ l :: b) w -> weaves (a ++ (x :: l) :: b) (x :: w).

(** Only merges, of at least one source each, and no chains. *)
Fixpoint only_merge {V} (t : tree V) : Prop :=
  match t with
  | Src _ => True
  | Op k c ts =>
      k = KMerge /\ c = ChNil V /\ ts <> [] /\
      (fix all ts := match ts with [] => True | t :: r => only_merge t /\ all r end) ts
  end.
