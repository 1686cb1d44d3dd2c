(** Composite disposables put into each other (C85): calls and what leads to what. *)
From Verif Require Import Base.
Open Scope nat_scope.

(** Disposables are numbered; a disposable that is nobody's parent is a plain one. *)
Inductive call := Dispose (k : nat) | Add (k j : nat) | Remove (k j : nat) | Clear (k : nat).

(** j is i itself or was put, by some call, into something i leads to. *)
Inductive leads (cs : list call) : nat -> nat -> Prop :=
| leads_here : forall i, leads cs i i
| leads_on : forall i k j, In (Add i k) cs -> leads cs k j -> leads cs i j.

(** Why a disposable may be disposed. *)
Definition reason (cs : list call) (j : nat) : Prop :=
  (exists i, In (Dispose i) cs /\ leads cs i j) \/
  (exists i k, In (Clear i) cs /\ In (Add i k) cs /\ leads cs k j).
