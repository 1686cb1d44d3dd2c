(** Lifetime of disposables, in terms of what can be seen from outside. *)
From Verif Require Import Base.

Inductive wev :=
| EDisp (o : nat)       (* disposable o is disposed (its action runs) *)
| EUser (o : nat)       (* the user calls dispose() on a wrapper of o *)
| EAdd (p o : nat)      (* a wrapper of o is added to composite p *)
| ERefused (o : nat)    (* a wrapper of o is added to a composite that is disposed or gone *)
| ELast (o : nat)       (* the last owning wrapper of o vanishes *)
| ERef (o r : nat) (strong : bool).   (* o becomes a reference of r; strong: r owns o, otherwise o owns r *)

(** There was a reason to dispose o. *)
Definition reason (tr : list wev) (o : nat) : Prop :=
  In (EUser o) tr \/ In (ELast o) tr \/ In (ERefused o) tr \/
  exists p, In (EAdd p o) tr /\ In (EDisp p) tr.

Definition is_disp (o : nat) (e : wev) : bool := match e with EDisp x => x =? o | _ => false end.
Definition disposals (tr : list wev) (o : nat) : nat := length (filter (is_disp o) tr).
