(** What the operators with several sources have to do, as functions of a history: the
    list of (source, event) pairs in the order in which they take effect. *)
From Verif Require Import Base.

Definition hist A := list (nat * ev A).

(** ** Histories of concurrent calls *)
(** A source calls on_next/on_error/on_completed ([Inv]) and the call returns ([Ret]). *)
Inductive lab (A : Type) := Inv (i : nat) (e : ev A) | Ret (i : nat) (e : ev A).
Arguments Inv {A} i e.
Arguments Ret {A} i e.

(** A trace annotated with the moments at which the calls take effect. *)
Inductive alab (A : Type) := Vis (l : lab A) | Lin (i : nat) (e : ev A).
Arguments Vis {A} l.
Arguments Lin {A} i e.

Definition erase {A} (tr : list (alab A)) : list (lab A) :=
  flat_map (fun x => match x with Vis l => [l] | Lin _ _ => [] end) tr.
Definition lins {A} (tr : list (alab A)) : hist A :=
  flat_map (fun x => match x with Lin i e => [(i, e)] | Vis _ => [] end) tr.
Definition at_src {A} (i : nat) (x : alab A) : bool :=
  match x with Vis (Inv j _) | Vis (Ret j _) | Lin j _ => j =? i end.
(** What concerns source i. *)
Definition per {A} (i : nat) (tr : list (alab A)) : list (alab A) := filter (at_src i) tr.
(** Every call takes effect exactly once, between its beginning and its end. *)
Definition expand {A} (i : nat) (p : list (ev A)) : list (alab A) :=
  flat_map (fun e => [Vis (Inv i e); Lin i e; Vis (Ret i e)]) p.
Definition prefix {X} (a b : list X) : Prop := exists r, b = a ++ r.

(** [linearized progs tr h]: h is an order of the events of the sources in which every
    event has its place between the beginning and the end of its call. *)
Definition linearized {A} (progs : list (list (ev A))) (tr : list (lab A)) (h : hist A) : Prop :=
  exists tr', erase tr' = tr /\ lins tr' = h /\
              forall i, prefix (per i tr') (expand i (nth i progs [])).

(** Events of a source after its terminal event do not count. *)
Fixpoint live_from {A} (ended : list nat) (h : hist A) : hist A :=
  match h with
  | [] => []
  | (i, e) :: r =>
      if existsb (Nat.eqb i) ended then live_from ended r
      else (i, e) :: live_from (if is_term e then i :: ended else ended) r
  end.
Definition live {A} (h : hist A) : hist A := live_from [] h.

(** Output of a history, event by event, each depending on what was before. *)
Fixpoint outs_from {A B} (out : hist A -> nat -> ev A -> list (ev B)) (past h : hist A) : list (ev B) :=
  match h with
  | [] => []
  | (i, e) :: r => out past i e ++ outs_from out (past ++ [(i, e)]) r
  end.
Definition outs {A B} (out : hist A -> nat -> ev A -> list (ev B)) (h : hist A) : list (ev B) :=
  outs_from out [] (live h).

(** Values, and completion, of source i in a history. *)
Definition values {A} (i : nat) (h : hist A) : list A :=
  flat_map (fun x => if fst x =? i then match snd x with Next v => [v] | _ => [] end else []) h.
Definition completed {A} (i : nat) (h : hist A) : bool :=
  existsb (fun x => (fst x =? i) && match snd x with Done => true | _ => false end) h.
Definition latest {A} (i : nat) (h : hist A) : option A :=
  match rev (values i h) with v :: _ => Some v | [] => None end.

(** Observables sent by source 0 so far (merge, switch_on_next). *)
Definition opened {V} (h : hist (unit + V)) : nat :=
  length (filter (fun x => (fst x =? 0) && match snd x with Next (inl _) => true | _ => false end) h).

(** merge.  Source 0 sends observables; the j-th one becomes source j. *)
Definition merge_out {V} (past : hist (unit + V)) (i : nat) (e : ev (unit + V)) : list (ev V) :=
  match e with
  | Next (inr v) => if i =? 0 then [] else [Next v]
  | Next (inl _) => []
  | Err x => [Err x]
  | Done =>
      let now := past ++ [(i, e)] in
      if forallb (fun j => completed j now) (seq 0 (S (opened now))) then [Done] else []
  end.

Fixpoint all_of {X} (l : list (option X)) : option (list X) :=
  match l with
  | [] => Some []
  | o :: r => match o, all_of r with Some x, Some y => Some (x :: y) | _, _ => None end
  end.

Definition all_done {A} (n : nat) (h : hist A) : bool := forallb (fun j => completed j h) (seq 0 n).

(** Result of the user's selector. *)
Definition of_res {B} (r : res B) : list (ev B) := match r with Ok b => [Next b] | Throw x => [Err x] end.

(** combine_latest over n sources. *)
Definition combine_latest_out {A B} (n : nat) (f : list A -> res B) (past : hist A) (i : nat) (e : ev A) : list (ev B) :=
  let now := past ++ [(i, e)] in
  match e with
  | Next _ => match all_of (map (fun j => latest j now) (seq 0 n)) with
              | Some l => of_res (f l)
              | None => []
              end
  | Err x => [Err x]
  | Done => if all_done n now then [Done] else []
  end.

(** zip over n sources: the k-th row is complete when every source has sent k values. *)
Definition row {A} (n : nat) (h : hist A) (k : nat) : option (list A) :=
  all_of (map (fun j => nth_error (values j h) k) (seq 0 n)).
Definition rows {A} (n : nat) (h : hist A) : nat :=
  match map (fun j => length (values j h)) (seq 0 n) with [] => 0 | x :: r => fold_left Nat.min r x end.
Definition zip_out {A B} (n : nat) (f : list A -> res B) (past : hist A) (i : nat) (e : ev A) : list (ev B) :=
  let now := past ++ [(i, e)] in
  match e with
  | Next _ => if rows n past <? rows n now
              then match row n now (rows n past) with Some l => of_res (f l) | None => [] end
              else []
  | Err x => [Err x]
  | Done => if all_done n now then [Done] else []
  end.

(** with_latest_from: source 0 is sampled with the latest values of sources 1..n. *)
Definition with_latest_out {A B} (n : nat) (f : A -> list A -> res B) (past : hist A) (i : nat) (e : ev A) : list (ev B) :=
  match e with
  | Next v => if i =? 0
              then match all_of (map (fun j => latest j past) (seq 1 n)) with
                   | Some l => of_res (f v l)
                   | None => []
                   end
              else []
  | Err x => [Err x]
  | Done => if i =? 0 then [Done] else []
  end.

(** take_until: source 0 until the first event of source 1. *)
Definition take_until_out {A} (past : hist A) (i : nat) (e : ev A) : list (ev A) :=
  if existsb (fun x => fst x =? 1) past then []
  else if i =? 0 then [e]
  else match e with Err x => [Err x] | _ => [Done] end.

(** switch_on_next: the j-th observable of source 0 is source j; only the latest counts. *)
Definition switch_out {V} (past : hist (unit + V)) (i : nat) (e : ev (unit + V)) : list (ev V) :=
  let current := opened past in
  let now := past ++ [(i, e)] in
  if (i =? 0) || (i =? current) then
    match e with
    | Next (inr v) => if i =? 0 then [] else [Next v]
    | Next (inl _) => []
    | Err x => [Err x]
    | Done => if completed 0 now && ((current =? 0) || completed current now) then [Done] else []
    end
  else [].
