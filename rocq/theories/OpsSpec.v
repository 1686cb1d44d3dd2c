(** Meaning of the single-source operators (C24-C28, C31), independent of the model:
    functions of the values [vs] emitted before the first terminal event and of the
    terminal part [t] (empty, [Done] or [Err e]). *)
From Verif Require Import Base.

Fixpoint map_spec {A B} (f : A -> res B) (vs : list A) (t : list (ev B)) : list (ev B) :=
  match vs with
  | [] => t
  | v :: r => match f v with Ok b => Next b :: map_spec f r t | Throw e => [Err e] end
  end.

Fixpoint filter_spec {A} (p : A -> res bool) (vs : list A) (t : list (ev A)) : list (ev A) :=
  match vs with
  | [] => t
  | v :: r => match p v with
              | Ok true => Next v :: filter_spec p r t
              | Ok false => filter_spec p r t
              | Throw e => [Err e]
              end
  end.

(** First n values; completes together with the n-th (n = 0: with the first). *)
Definition take_spec {A} (n : nat) (vs : list A) (t : list (ev A)) : list (ev A) :=
  if length vs <? Nat.max 1 n then map Next vs ++ t
  else map Next (firstn n vs) ++ [Done].

Definition skip_spec {A} (n : nat) (vs : list A) (t : list (ev A)) : list (ev A) :=
  map Next (skipn n vs) ++ t.

(** Replace a completion by an error. *)
Definition done_to_err {A} (x : exn) (t : list (ev A)) : list (ev A) :=
  match t with [Done] => [Err x] | _ => t end.

Definition element_at_spec {A} (oor : exn) (i : nat) (vs : list A) (t : list (ev A)) : list (ev A) :=
  match nth_error vs i with
  | Some v => [Next v; Done]
  | None => done_to_err oor t
  end.

Definition first_spec {A} (nee : exn) (vs : list A) (t : list (ev A)) : list (ev A) :=
  match vs with
  | v :: _ => [Next v; Done]
  | [] => done_to_err nee t
  end.

Definition last_spec {A} (nee : exn) (vs : list A) (t : list (ev A)) : list (ev A) :=
  match t with
  | [Done] => match rev vs with v :: _ => [Next v; Done] | [] => [Err nee] end
  | _ => t
  end.

(** The last n elements of a list. *)
Definition lastn {A} (n : nat) (vs : list A) : list A := skipn (length vs - n) vs.

Definition take_last_spec {A} (n : nat) (vs : list A) (t : list (ev A)) : list (ev A) :=
  match t with
  | [Done] => map Next (lastn n vs) ++ [Done]
  | _ => t
  end.

Fixpoint take_while_spec {A} (p : A -> res bool) (vs : list A) (t : list (ev A)) : list (ev A) :=
  match vs with
  | [] => t
  | v :: r => match p v with
              | Ok true => Next v :: take_while_spec p r t
              | Ok false => [Done]
              | Throw e => [Err e]
              end
  end.

(** First occurrence of every value: keep the head, delete its later copies. *)
Fixpoint first_occurrences {A} (eqb : A -> A -> bool) (vs : list A) : list A :=
  match vs with
  | [] => []
  | v :: r => v :: filter (fun x => negb (eqb x v)) (first_occurrences eqb r)
  end.

Definition distinct_spec {A} (eqb : A -> A -> bool) (vs : list A) (t : list (ev A)) : list (ev A) :=
  map Next (first_occurrences eqb vs) ++ t.

(** [duc_after l vs]: what is delivered when [l] is the previously delivered value. *)
Fixpoint duc_after {A} (cmp : A -> A -> res bool) (l : A) (vs : list A) (t : list (ev A)) : list (ev A) :=
  match vs with
  | [] => t
  | v :: r => match cmp l v with
              | Ok true => duc_after cmp l r t
              | Ok false => Next v :: duc_after cmp v r t
              | Throw e => [Err e]
              end
  end.
Definition duc_spec {A} (cmp : A -> A -> res bool) (vs : list A) (t : list (ev A)) : list (ev A) :=
  match vs with
  | [] => t
  | v :: r => Next v :: duc_after cmp v r t
  end.

(** Left fold with a throwing accumulator. *)
Fixpoint foldr_res {A B} (f : B -> A -> res B) (s : B) (vs : list A) : res B :=
  match vs with
  | [] => Ok s
  | v :: r => match f s v with Ok s' => foldr_res f s' r | Throw e => Throw e end
  end.

(** scan: the i-th delivered value is the fold of the first i values. *)
Fixpoint scan_from {A B} (f : B -> A -> res B) (s : B) (vs : list A) (t : list (ev B)) : list (ev B) :=
  match vs with
  | [] => t
  | v :: r => match f s v with Ok s' => Next s' :: scan_from f s' r t | Throw e => [Err e] end
  end.
Definition scan_spec {A B} (f : B -> A -> res B) (seed : B) (vs : list A) (t : list (ev B)) : list (ev B) :=
  Next seed :: scan_from f seed vs t.
Definition scan1_spec {A} (f : A -> A -> res A) (vs : list A) (t : list (ev A)) : list (ev A) :=
  match vs with
  | [] => t
  | v :: r => Next v :: scan_from f v r t
  end.

Definition reduce_spec {A B} (f : B -> A -> res B) (seed : B) (vs : list A) (t : list (ev B)) : list (ev B) :=
  match foldr_res f seed vs with
  | Throw e => [Err e]
  | Ok total => match t with [Done] => [Next total; Done] | _ => t end
  end.
Definition reduce1_spec {A} (f : A -> A -> res A) (vs : list A) (t : list (ev A)) : list (ev A) :=
  match vs with
  | [] => t
  | v :: r => reduce_spec f v r t
  end.

(** buffer: [out] consists of chunks of exactly n values whose concatenation is the
    input; the rest (shorter than n) is delivered at completion if non-empty. *)
Definition buffer_rel {A} (n : nat) (vs : list A) (t out : list (ev (list A))) : Prop :=
  exists (full : list (list A)) (rest : list A),
    vs = concat full ++ rest /\
    Forall (fun c => length c = n) full /\
    length rest < n /\
    out = map Next full ++
          match t with
          | [Done] => (match rest with [] => [] | _ => [Next rest] end) ++ [Done]
          | _ => t
          end.

(** throttle: [throttle_after l vs] when the last delivered value arrived at [l]. *)
Fixpoint throttle_after {A} (dur : nat) (l : nat) (vs : list (nat * A)) (t : list (ev A)) : list (ev A) :=
  match vs with
  | [] => t
  | (now, v) :: r => if now <? l + dur then throttle_after dur l r t
                     else Next v :: throttle_after dur now r t
  end.
Definition throttle_spec {A} (dur : nat) (vs : list (nat * A)) (t : list (ev A)) : list (ev A) :=
  match vs with
  | [] => t
  | (now, v) :: r => Next v :: throttle_after dur now r t
  end.
