(** C79: pushing into a publish_subject from inside its subscribers' callbacks. *)
From Coq Require Import Permutation.
From Verif Require Import Base ObserverSpec NestSpec NestModel NestProofs.

(** When no callback is running, every subscriber that has not been disposed has got every
    value pushed, each exactly once - whatever pushes were nested in whose callbacks. *)
Theorem C79_everyone : forall V (subs : list nat) (tr : list (nact V)) st i,
  NoDup subs -> nrun subs tr = Some st -> In i subs ->
  (forall e, In e (npushed tr) -> is_term e = false) -> ~ In (NStop i) tr -> begun (n_log st) = returned tr ->
  Permutation (npushed tr) (got i (n_log st)).
Proof.
  intros V subs tr st i N R I T S W. pose proof (ninv_run subs N tr st R) as [I1 I2 I3 I4 I5 I6 I7 I8 I9].
  assert (O : n_over st = false).
  { rewrite I2. destruct (over_in (npushed tr)) eqn:E; auto. apply existsb_exists in E. destruct E as (e & Ie & Te). rewrite (T e Ie) in Te. discriminate. }
  assert (D : n_dead st i = false). { destruct (n_dead st i) eqn:E; auto. destruct (I9 i I E); [congruence|contradiction]. }
  assert (W' : n_walks st = []) by (pose proof (count_run subs tr st R); destruct (n_walks st); [auto|cbn in *; lia]).
  specialize (I5 i I D). rewrite W' in I5. cbn in I5. now rewrite app_nil_r in I5.
Qed.
Print Assumptions C79_everyone.

(** The observer that subscribed first has got, at every moment, the events pushed so far
    in the order in which the pushes began, up to the first terminal one; if it has been
    disposed, an initial part of them. *)
Theorem C79_first : forall V i others (tr : list (nact V)) st,
  NoDup (i :: others) -> nrun (i :: others) tr = Some st ->
  (exists rest, until_end (npushed tr) = got i (n_log st) ++ rest) /\
  (~ In (NStop i) tr -> got i (n_log st) = until_end (npushed tr)).
Proof. intros V i others tr st N R. exact (first_run i others N tr st R). Qed.
Print Assumptions C79_first.

(** Nobody gets anything after a terminal event; nobody gets an event that was not pushed
    or gets it more often than it was pushed; who did not subscribe gets nothing. *)
Theorem C79_grammar : forall V (subs : list nat) (tr : list (nact V)) st i,
  NoDup subs -> nrun subs tr = Some st ->
  grammatical (got i (n_log st)) /\ (exists missing, Permutation (npushed tr) (got i (n_log st) ++ missing)) /\
  (~ In i subs -> got i (n_log st) = []).
Proof.
  intros V subs tr st i N R. pose proof (ninv_run subs N tr st R) as [I1 I2 I3 I4 I5 I6 I7 I8 I9]. split; [apply I7|split; [|apply I6]].
  destruct (sub_run subs N i tr st R) as (t & P). eexists. exact P.
Qed.
Print Assumptions C79_grammar.

(** Once disposed, a subscriber gets nothing more, also not from the emissions that are
    already on their way to it. *)
Theorem C79_stop : forall V (subs : list nat) (tr tr' : list (nact V)) st st' i,
  NoDup subs -> nrun subs tr = Some st -> In (NStop i) tr -> nrun subs (tr ++ tr') = Some st' ->
  got i (n_log st') = got i (n_log st).
Proof. intros V subs tr tr' st st' i N R S R'. exact (stopped_run subs N i tr st R S tr' st' R'). Qed.
Print Assumptions C79_stop.

(** The first terminal event reaches everyone who was not disposed before it, at once and
    as the last event. *)
Theorem C79_end : forall V (subs : list nat) (tr : list (nact V)) st st' e i,
  NoDup subs -> nrun subs tr = Some st -> In i subs -> ~ In (NStop i) tr ->
  (forall x, In x (npushed tr) -> is_term x = false) -> is_term e = true ->
  nrun subs (tr ++ [NPush e]) = Some st' -> got i (n_log st') = got i (n_log st) ++ [e].
Proof. intros V subs tr st st' e i N R I S T E R'. exact (end_run subs N tr st R i I S T e E st' R'). Qed.
Print Assumptions C79_end.

(** A push and a disposal are possible at any moment, and a callback that has begun can
    return: nothing blocks or fails. *)
Theorem C79_progress : forall V (subs : list nat) (tr : list (nact V)) st a,
  nrun subs tr = Some st -> (a = NReturn -> returned tr < begun (n_log st)) ->
  exists st', nrun subs (tr ++ [a]) = Some st'.
Proof. intros V subs tr st a R H. exact (able_run subs tr st R a H). Qed.
Print Assumptions C79_progress.

(** Two subscribers; the first one, given 1, pushes 2. *)
Definition nest_case : list (nact nat) := [NPush (Next 1); NPush (Next 2); NReturn; NReturn; NReturn; NReturn].
Example C79_case : exists st, nrun [0; 1] nest_case = Some st /\ begun (n_log st) = returned nest_case /\
  got 0 (n_log st) = [Next 1; Next 2] /\ got 1 (n_log st) = [Next 2; Next 1].
Proof. eexists. split; [vm_compute; reflexivity|]. repeat split. Qed.

(** Only the first subscriber sees the pushed order: a subscriber behind the one that
    pushes gets the inner value before the outer one. *)
Theorem C79_order_refuted : ~ (forall (subs : list nat) (tr : list (nact nat)) st i,
  NoDup subs -> nrun subs tr = Some st -> In i subs -> begun (n_log st) = returned tr ->
  (forall k, ~ In (NStop k) tr) -> got i (n_log st) = until_end (npushed tr)).
Proof.
  intro H. destruct C79_case as (st & R & W & _ & G).
  specialize (H [0; 1] nest_case st 1). rewrite G in H.
  assert (Q : [Next 2; Next 1] = until_end (npushed nest_case)).
  { apply H; auto; [repeat constructor; cbn; intuition discriminate|cbn; auto|intros k [Q|[Q|[Q|[Q|[Q|[Q|[]]]]]]]; discriminate]. }
  discriminate.
Qed.
Print Assumptions C79_order_refuted.

(** Completion pushed from inside a callback overtakes the value being delivered: the
    subscribers behind lose it. *)
Definition lost_case : list (nact nat) := [NPush (Next 1); NPush Done; NReturn].
Example C79_lost_case : exists st, nrun [0; 1] lost_case = Some st /\ begun (n_log st) = returned lost_case /\
  got 0 (n_log st) = [Next 1; Done] /\ got 1 (n_log st) = [Done].
Proof. eexists. split; [vm_compute; reflexivity|]. repeat split. Qed.
Theorem C79_lost_refuted : ~ (forall (subs : list nat) (tr : list (nact nat)) st i,
  NoDup subs -> nrun subs tr = Some st -> In i subs -> begun (n_log st) = returned tr ->
  (forall k, ~ In (NStop k) tr) -> Permutation (until_end (npushed tr)) (got i (n_log st))).
Proof.
  intro H. destruct C79_lost_case as (st & R & W & _ & G).
  specialize (H [0; 1] lost_case st 1). rewrite G in H.
  assert (Q : Permutation (until_end (npushed lost_case)) [Done]).
  { apply H; auto; [repeat constructor; cbn; intuition discriminate|cbn; auto|intros k [Q|[Q|[Q|[]]]]; discriminate]. }
  apply Permutation_length in Q. discriminate.
Qed.
Print Assumptions C79_lost_refuted.
