(** One subject feeding several branches that are combined again (C83): what the
    subscriber sees. *)
From Verif Require Import Base MultiSpec.
Open Scope nat_scope.

Section Diamond.
  Context {V A B : Type}.
  (** Branch j maps the values with f j; branch 0 is the main one, 1..n are the arguments. *)
  Variables (f : nat -> V -> A) (n : nat).

  Definition terminal (t : list (ev V)) : list (ev B) :=
    match t with [] => [] | Err x :: _ => [Err x] | _ => [Done] end.

  (** merge_with: every value once per branch, the branches in order. *)
  Definition diamond_merge (vs : list V) : list A := flat_map (fun v => map (fun j => f j v) (seq 0 (S n))) vs.

  (** zip: every value meets itself. *)
  Definition diamond_zip (g : list A -> B) (vs : list V) : list B :=
    map (fun v => g (map (fun j => f j v) (seq 0 (S n)))) vs.

  (** with_latest_from: the arguments have the value before the main branch has it. *)
  Definition diamond_latest (g : A -> list A -> B) (vs : list V) : list B :=
    map (fun v => g (f 0 v) (map (fun j => f j v) (seq 1 n))) vs.

  (** combine_latest: n + 1 results for every value but the first; in the k-th of them the
      branches 1..k have the new value and the others still the old one ("glitches"), the
      last one is consistent. *)
  Definition mixed (old new : V) (k : nat) : list A :=
    map (fun j => f j (if (1 <=? j) && (j <=? k) || (k =? S n) then new else old)) (seq 0 (S n)).
  Fixpoint diamond_combine_from (g : list A -> B) (old : V) (vs : list V) : list B :=
    match vs with
    | [] => []
    | v :: r => map (fun k => g (mixed old v k)) (seq 1 (S n)) ++ diamond_combine_from g v r
    end.
  Definition diamond_combine (g : list A -> B) (vs : list V) : list B :=
    match vs with
    | [] => []
    | v :: r => g (map (fun j => f j v) (seq 0 (S n))) :: diamond_combine_from g v r
    end.
End Diamond.
