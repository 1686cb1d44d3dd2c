(** C82: operators stacked on each other. *)
From Verif Require Import Base Machine MachineProofs Concur ObserverSpec ObserverModel MultiSpec MultiModel.
From Verif Require Import OpsModel ChainSpec ChainModel TreeSpec TreeModel TreeProofs TreeEnd.
Open Scope nat_scope.

Lemma sub_subterm : forall V (T : tree V) p, sub T p = subterm T p.
Proof. intros V T. induction p as [|i p IH]; cbn; auto. now rewrite IH. Qed.

(** No execution gets stuck: each mutex is taken while at most the mutexes further up are
    held, so there is always somebody who can go on. *)
Theorem C82_no_deadlock : forall V (k : kind V) c ts (F : machine V) f0 stale tr cfg, proper (Op k c ts) ->
  gexec (tstep (node_at (Op k c ts) F f0) stale) (start (Op k c ts) F f0 stale) tr cfg ->
  gfinished cfg \/ exists ls cfg', gstep (tstep (node_at (Op k c ts) F f0) stale) cfg ls cfg'.
Proof. intros V k c ts F f0 stale tr cfg PR X. eapply whole_progress; eauto. Qed.
Print Assumptions C82_no_deadlock.

(** No execution goes on forever. *)
Theorem C82_finite : forall V (k : kind V) c ts (F : machine V) f0 stale,
  ~ exists f, f 0 = start (Op k c ts) F f0 stale /\ forall n, exists ls, gstep (tstep (node_at (Op k c ts) F f0) stale) (f n) ls (f (S n)).
Proof.
  intros V k c ts F f0 stale (f & E & H).
  assert (G : forall c0, Acc (fun y x => exists ls, gstep (tstep (node_at (Op k c ts) F f0) stale) x ls y) c0 -> forall n, f n = c0 -> False).
  { intros c0 A. induction A as [c0 _ IH]. intros n EN. destruct (H n) as (ls & G). rewrite EN in G. apply (IH (f (S n))) with (n := S n); eauto. }
  exact (G _ (whole_acc (Op k c ts) F f0 stale) 0 E).
Qed.
Print Assumptions C82_finite.

(** So whatever has happened, it can come to an end. *)
Theorem C82_completes : forall V (k : kind V) c ts (F : machine V) f0 stale tr cfg, proper (Op k c ts) ->
  gexec (tstep (node_at (Op k c ts) F f0) stale) (start (Op k c ts) F f0 stale) tr cfg ->
  exists tr' cfg', gexec (tstep (node_at (Op k c ts) F f0) stale) (start (Op k c ts) F f0 stale) (tr ++ tr') cfg' /\ gfinished cfg'.
Proof.
  intros V k c ts F f0 stale tr cfg PR X.
  assert (A : Acc (fun y x => exists ls, gstep (tstep (node_at (Op k c ts) F f0) stale) x ls y) cfg).
  { generalize (whole_acc (Op k c ts) F f0 stale). clear PR. induction X as [|c0 tr c1 ls c2 X IH G]; intro A; [exact A|]. exact (Acc_inv (IH A) _ (ex_intro _ ls G)). }
  revert tr X. induction A as [cfg _ IH]. intros tr X. destruct (C82_no_deadlock _ _ _ _ _ _ _ _ _ PR X) as [FI|(ls & cfg' & G)].
  - exists [], cfg. now rewrite app_nil_r.
  - destruct (IH cfg' ltac:(eauto) (tr ++ ls)) as (tr' & c' & X' & FI); [econstructor; eauto|]. exists (ls ++ tr'), c'. now rewrite app_assoc.
Qed.
Print Assumptions C82_completes.

(** At any moment the calls on the observer that an operator has given to one of its
    sources have been one after the other; if the source is an operator itself, they keep
    the grammar. *)
Theorem C82_serial : forall V (k : kind V) c ts (F : machine V) f0 stale tr cfg, proper (Op k c ts) ->
  gexec (tstep (node_at (Op k c ts) F f0) stale) (start (Op k c ts) F f0 stale) tr cfg ->
  forall p i t, subterm (Op k c ts) (i :: p) = Some t ->
  exists es, MultiSpec.prefix (calls_on p i tr) (one_by_one i es) /\ match t with Src l => es = l | Op _ _ _ => grammatical es end.
Proof. intros V k c ts F f0 stale tr cfg PR X p i t ST. rewrite <- sub_subterm in ST. eapply whole_serial; eauto. Qed.
Print Assumptions C82_serial.

(** At the end the subscriber has got a result of the expression: every operator has
    worked on the results of its sources, in an order that keeps each of them. *)
Theorem C82_result : forall V (k : kind V) c ts (F : machine V) f0 stale tr cfg, proper (Op k c ts) -> lawful F ->
  gexec (tstep (node_at (Op k c ts) F f0) stale) (start (Op k c ts) F f0 stale) tr cfg -> gfinished cfg ->
  exists l, result (Op k c ts) l /\ subscriber k c ts F f0 (fst cfg) = mrun F f0 l.
Proof. exact whole_result. Qed.
Print Assumptions C82_result.

(** For merges stacked on merges that means: the values of all sources, each once and in
    the order of its source, and the completion at the end. *)
Theorem C82_merges : forall V (ts : list (tree V)) (F : machine V) f0 stale tr cfg, lawful F ->
  let T := Op KMerge (ChNil V) ts in
  only_merge T -> (forall p, In p (sources T) -> exists vs, p = map Next vs ++ [Done]) ->
  gexec (tstep (node_at T F f0) stale) (start T F f0 stale) tr cfg -> gfinished cfg ->
  exists w, weaves (map vals (sources T)) w /\ subscriber KMerge (ChNil V) ts F f0 (fst cfg) = mrun F f0 (map Next w ++ [Done]).
Proof.
  intros V ts F f0 stale tr cfg L T OM SR X FI. destruct (whole_result _ _ _ _ _ _ _ _ _ (only_merge_proper T OM) L X FI) as (l & R & E).
  destruct (merges_weave T l OM SR R) as (w & -> & W). eauto.
Qed.
Print Assumptions C82_merges.

(** merge of (zip of 1 2 and 10 20 30, sums of at least 20 only) and (5 6 until 0 comes). *)
Definition tree_chain : chain nat nat := ChCons _ _ _ (LMap nat nat (fun v => Ok (2 * v))) (ChNil nat).
Definition tree_subs : list (tree nat) :=
    [Op (KZip (fun l => list_sum l)) (ChCons _ _ _ (LFilter nat (fun v => Ok (20 <=? v))) (ChNil nat))
        [Src [Next 1; Next 2; Done]; Src [Next 10; Next 20; Next 30; Done]];
     Op KTakeUntil (ChNil nat) [Src [Next 5; Next 6; Done]; Src [Next 0]]].
Definition tree_case : tree nat := Op KMerge tree_chain tree_subs.
Definition tree_user := leaf (fun _ (_ : nat) => RCont).
Definition tree_start := start tree_case tree_user o_init (fun _ _ => false).
Definition tree_sched : list nat :=
  [2; 0; 2; 1; 2; 0; 2; 1; 2; 3; 2; 0; 2; 1; 2; 0; 2; 2; 2; 2; 2; 0; 2; 2; 2;
   0; 2; 2; 2; 3; 2; 0; 2; 1; 2; 0; 2; 1; 2; 3; 2; 0; 2; 1; 2; 0; 2; 1; 2; 2;
   2; 0; 2; 1; 2; 0; 2; 1; 2; 3; 2; 0; 1; 1; 0; 0; 1; 1; 3; 3; 0; 0; 1; 1; 0;
   0; 1; 1; 3; 3; 0; 1; 1; 1; 1; 1; 1; 1; 3; 3; 1; 1; 1; 1; 1; 1; 1; 1; 3; 3;
   1; 1; 1; 1; 1; 1; 1; 1; 1; 1; 1; 1; 1; 1; 1; 1].
Example C82_case : proper tree_case /\ exists tr s,
  gexec (tstep (node_at tree_case tree_user o_init) (fun _ _ => false)) tree_start tr (s, [[]; []; []; []]) /\
  o_log (subscriber KMerge tree_chain tree_subs tree_user o_init s) = [Next 10; Next 12; Next 44; Done] /\
  calls_on [] 0 tr = [Inv 0 (Next 22); Ret 0 (Next 22); Inv 0 Done; Ret 0 Done].
Proof.
  split; [cbn; repeat split; auto|].
  set (r := grun (tstep (node_at tree_case tree_user o_init) (fun _ _ => false)) tree_sched tree_start).
  assert (E : option_map (fun r => (map (@length _) (snd (snd r)), o_log (subscriber KMerge tree_chain tree_subs tree_user o_init (fst (snd r))), calls_on [] 0 (fst r))) r =
     Some ([0; 0; 0; 0], [Next 10; Next 12; Next 44; Done], [Inv 0 (Next 22); Ret 0 (Next 22); Inv 0 Done; Ret 0 Done])) by (vm_compute; reflexivity).
  destruct r as [(tr, (s, thr))|] eqn:G; [|discriminate]. apply grun_sound in G. injection E as E1 E2 E3. exists tr, s.
  destruct thr as [|[|] [|[|] [|[|] [|[|] [|]]]]]; try discriminate. auto.
Qed.
