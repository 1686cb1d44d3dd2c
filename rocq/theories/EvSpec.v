(** C72, C73: schedulers on top of somebody else's event loop (asio strand, Qt main
    thread); more things read off the traces of LoopSpec. *)
From Coq Require Import ZArith.
From Verif Require Import Base QueueSpec SchedSpec LoopSpec.
Open Scope Z_scope.

(** Nothing more is going to happen to the task. *)
Definition settled (tr : list ltev) (id : nat) : Prop := over tr id \/ exists h, happened tr (LErr id h).

(** Tasks in the order in which they became ready to run: asked for without delay (due at
    the very time of the call and no timer set for it), or their timer fired. *)
Definition ready1 (l : list nat) (e : ltev) : list nat :=
  match snd e with
  | LCall VWorker id _ _ tp => if tp =? fst e then l ++ [id] else l
  | LPick id => l ++ [id]
  | LAgain id _ | LStart id | LDrop id => filter (fun x => negb (Nat.eqb x id)) l
  | _ => l
  end.
Definition readyq (tr : list ltev) : list nat := fold_left ready1 tr [].

(** Tasks in the order in which they were handed to the loop to be run without a timer. *)
Definition post1 (l : list nat) (e : ltev) : list nat :=
  match snd e with
  | LPick id => l ++ [id]
  | LStart id | LDrop id => filter (fun x => negb (Nat.eqb x id)) l
  | _ => l
  end.
Definition postq (tr : list ltev) : list nat := fold_left post1 tr [].
(** When the next run of the task was asked for: the call, or the end of the run that asked
    to be repeated. *)
Definition requested1 (id : nat) (cur : option Z) (e : ltev) : option Z :=
  match snd e with
  | LCall _ i _ _ _ => if Nat.eqb i id then Some (fst e) else cur
  | LEnd i (RAgain _) => if Nat.eqb i id then Some (fst e) else cur
  | _ => cur
  end.
Definition requested (tr : list ltev) (id : nat) : option Z := fold_left (requested1 id) tr None.

(** When the latest run of the task began. *)
Definition started1 (id : nat) (cur : option Z) (e : ltev) : option Z :=
  match snd e with LStart i => if Nat.eqb i id then Some (fst e) else cur | _ => cur end.
Definition started (tr : list ltev) (id : nat) : option Z := fold_left (started1 id) tr None.

(** Submitted with the scheduler's worker, or with current_thread inside a task. *)
Definition by_worker (tr : list ltev) (id : nat) : Prop := exists h k tp, happened tr (LCall VWorker id h k tp).
Definition by_nested (tr : list ltev) (id : nat) : Prop := exists h k tp, happened tr (LCall VNested id h k tp).

(** Decision procedure, for examples. *)
Definition lev_dec : forall x y : lev, {x = y} + {x <> y}.
Proof. repeat decide equality. Defined.
Definition hasb (tr : list ltev) (e : lev) : bool := existsb (fun x => if lev_dec (snd x) e then true else false) tr.
Lemma hasb_ok : forall tr e, hasb tr e = true <-> happened tr e.
Proof.
  intros tr e. unfold hasb. rewrite existsb_exists. split.
  - intros ((t & x) & I & H). cbn in H. destruct (lev_dec x e) as [->|]; [now exists t | discriminate].
  - intros (t & I). exists (t, e). split; auto. cbn. destruct (lev_dec e e); congruence.
Qed.
Lemma hasb_no : forall tr e, hasb tr e = false -> ~ happened tr e.
Proof. intros tr e H J. apply hasb_ok in J. congruence. Qed.
