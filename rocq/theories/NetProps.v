(** C85: composite disposables put into each other, even in a cycle, used by any number of threads. *)
From Verif Require Import Base CompositeModel Concur NetSpec NetModel NetProofs NetClear.
Open Scope nat_scope.

(** The calls of all threads, and the executions of the threads' programs. *)
Notation calls progs := (concat progs) (only parsing).
Notation reach progs := (gexec nstep (n_init progs)) (only parsing).

(** Nothing is disposed twice, however the disposables lead to each other. *)
Theorem C85_once : forall progs tr c, reach progs tr c -> NoDup tr.
Proof. intros progs tr c R. exact (i_nd _ _ _ (proj1 (reach_all _ _ _ R))). Qed.

(** What was put into a disposed one is disposed in the end. *)
Theorem C85_released : forall progs tr c, reach progs tr c -> gfinished c ->
  forall k j, In (Add k j) (calls progs) -> ~ In (Remove k j) (calls progs) -> In k tr -> In j tr.
Proof. apply put_in. Qed.

(** What a thread puts into a composite and clears afterwards is disposed in the end. *)
Theorem C85_cleared : forall ps1 a k j b d ps2, let progs := ps1 ++ (a ++ Add k j :: b ++ Clear k :: d) :: ps2 in
  j <> k -> ~ In (Remove k j) (calls progs) -> forall tr c, reach progs tr c -> gfinished c -> In j tr.
Proof. intros ps1 a k j b d ps2 progs NE NR tr c R F. eapply (cleared_in progs); eauto. reflexivity. Qed.

(** Nothing is disposed without a reason, at any moment. *)
Theorem C85_reason : forall progs tr c, reach progs tr c -> forall j, In j tr -> reason (calls progs) j.
Proof.
  intros progs tr c R j I. destruct (reach_all _ _ _ R) as (H1 & H2 & _). apply (j_st _ _ _ H2). now apply (i_tr _ _ _ H1).
Qed.

(** Without remove and clear the set of disposed ones does not depend on the interleaving. *)
Theorem C85_exact : forall progs, (forall k j, ~ In (Remove k j) (calls progs)) -> (forall k, ~ In (Clear k) (calls progs)) ->
  forall tr c, reach progs tr c -> gfinished c ->
  forall j, In j tr <-> exists i, In (Dispose i) (calls progs) /\ leads (calls progs) i j.
Proof.
  intros progs NR NC tr c R F j. split.
  - intro I. destruct (C85_reason _ _ _ R j I) as [X|(i & k & C & _)]; auto. exfalso. now apply (NC i).
  - intros (i & D & L). assert (I : In i tr).
    { destruct (asked _ _ _ R i D) as [X|X]; auto. rewrite (gfinished_concat _ F) in X. easy. }
    clear D. induction L as [i|i k j A L IH]; auto. apply IH. eapply C85_released; eauto.
Qed.

(** Nobody waits for ever: as long as calls are pending somebody can go on, unless a composite
    that is cleared leads back to itself. *)
Theorem C85_progress : forall progs, (forall k m, In (Clear k) (calls progs) -> In (Add k m) (calls progs) -> m <> k -> ~ leads (calls progs) m k) ->
  forall tr c, reach progs tr c -> ~ gfinished c -> exists ls c', gstep nstep c ls c'.
Proof.
  intros progs SAFE tr [s ts] R NF. destruct (progress progs SAFE s ts tr R NF) as (a & it & rest & b & -> & N).
  destruct (nstep s it) as [[[s' its] ls]|] eqn:Q; [|easy]. exists ls. eexists. constructor. exact Q.
Qed.

(** ... and the calls end after a bounded number of steps. *)
Theorem C85_ends : forall progs, exists bound, forall n c, nruns (n_init progs) n c -> n <= bound.
Proof. intro progs. eexists. intros n c E. pose proof (measure_runs _ _ _ E). eapply Nat.le_trans; [|exact H]. lia. Qed.

(** A cleared composite that leads back to itself waits for itself: clear() holds the editing state
    while it disposes the children. *)
Theorem C85_clear_cycle : exists progs tr c, gexec nstep (n_init progs) tr c /\ ~ gfinished c /\ forall ls c', ~ gstep nstep c ls c'.
Proof.
  exists [[Add 0 1; Add 1 0; Clear 0]]. set (c := snd (gtol nstep (repeat 0 20) (n_init [[Add 0 1; Add 1 0; Clear 0]]))).
  exists (fst (gtol nstep (repeat 0 20) (n_init [[Add 0 1; Add 1 0; Clear 0]]))), c. split; [apply gtol_sound|].
  assert (T : snd c = [[NCall (Dispose 0); NKids 1; NClr 0]] /\ nt_st (fst c) 0 = CEdit) by (vm_compute; auto).
  destruct c as [s ts]. cbn [fst snd] in T. destruct T as (-> & E). split.
  - intro F. specialize (F _ (or_introl eq_refl)). discriminate.
  - intros ls c' G. inversion G as [s0 ts1 it rest ts2 s' its ls' ST [Q1 Q2]]; subst. destruct ts1 as [|t [|t' ts1]]; cbn in Q2; [|discriminate|discriminate]. injection Q2 as -> -> ->.
    cbn [nstep] in ST. rewrite E in ST. discriminate.
Qed.

(** Two threads; 0 leads to 1 and 2, both lead to 3, and 3 back to 0; 4 is put into 3 while 0 is
    being disposed; 5 leads to 0 but is not disposed.  The end is the same in both schedules. *)
Definition case_calls : list (list call) :=
  [[Add 0 1; Add 0 2; Add 1 3; Add 2 3; Add 3 0; Add 5 0; Dispose 0]; [Add 3 4; Add 5 6]].
Example C85_case :
  let one := gtol nstep (repeat 0 80 ++ repeat 1 30) (n_init case_calls) in
  let two := gtol nstep (concat (repeat [1; 0; 0] 40)) (n_init case_calls) in
  fst one = [0; 1; 3; 2; 4] /\ snd (snd one) = [[]; []] /\ fst two = [0; 1; 3; 4; 2] /\ snd (snd two) = [[]; []].
Proof. vm_compute. auto. Qed.

Print Assumptions C85_once.
Print Assumptions C85_released.
Print Assumptions C85_cleared.
Print Assumptions C85_reason.
Print Assumptions C85_exact.
Print Assumptions C85_progress.
Print Assumptions C85_ends.
Print Assumptions C85_clear_cycle.
