(** C53 for every history of calls in one thread. *)
From Verif Require Import Base Machine MachineProofs ObserverModel ChainModel ChainProofs MultiSpec MultiLin MultiRace MultiProps SubjSpec SubjModel SubjProofs ConnSpec ConnModel ConnProofs.

(** Any history of subscriptions (of distinct observers), unsubscriptions, connect(),
    disposals of connections and events of the source: at most one subscription of the source
    is in force, its events and no others are passed on, and each observer ends as if it alone
    had got exactly those passed on while it was subscribed. *)
Theorem C53_history : forall V (D : machine V), lawful D -> forall h d0, NoDup (hsubs h) ->
  exists c r, hop_run D (cn_init D d0) h = Some (c, r) /\ map fst r = h /\ shared None r /\
    forall i, s_sub D (c_g D c) i =
      if unsubbed i (seen r) then mkill D (mrun D d0 (received i (seen r))) else mrun D d0 (received i (seen r)).
Proof.
  intros V D L h d0 ND.
  destruct (hop_run_ok D L h _ _ _ _ (base_init D d0) ND (fun _ _ => eq_refl)) as (c & r & f & on & R & _ & S & Q & M).
  exists c, r. split; auto. split; auto. split; auto.
  destruct (publish_run D L (seen r) d0) as (g & R' & E).
  { rewrite seen_subs. unfold reply. now rewrite M. }
  cbn [cn_init c_g] in Q. change (sop_run D (fun _ _ => []) (subj_init D d0) (seen r) = Some g) in R'. assert (EG : c_g D c = g) by (unfold cn_init in Q; cbn [c_g] in Q; congruence). rewrite EG. exact E.
Qed.
Print Assumptions C53_history.

(** connect() without ref_count: it connects unless there is a connection or the source has
    ended, and only disposal or the end of the source disconnects. *)
Theorem C53_connect : forall V (D : machine V), lawful D -> forall h d0, NoDup (hsubs h) -> uncounted h ->
  exists c r, hop_run D (cn_init D d0) h = Some (c, r) /\ connected_by_call None false r.
Proof.
  intros V D L h d0 ND UC.
  destruct (hop_run_ok D L h _ _ _ _ (base_init D d0) ND (fun _ _ => eq_refl)) as (c & r & f & on & R & _).
  exists c, r. split; auto.
  exact (hop_run_call D L h _ _ _ _ c r (base_init D d0) eq_refl UC ND (fun _ _ => eq_refl) R).
Qed.
Print Assumptions C53_connect.

(** ref_count alone: after every history the source is subscribed exactly when some observer
    that subscribed is still there. *)
Theorem C53_ref_count : forall V (D : machine V), lawful D -> forall h d0, NoDup (hsubs h) -> counted h ->
  exists c r, hop_run D (cn_init D d0) h = Some (c, r) /\
    ((exists k, in_force None r = Some k) <-> exists i, In i (hsubs h) /\ mdisp D (s_sub D (c_g D c) i) = false).
Proof.
  intros V D L h d0 ND CH.
  destruct (hop_run_ok D L h _ _ _ _ (base_init D d0) ND (fun _ _ => eq_refl)) as (c & r & f & on & R & _).
  exists c, r. split; auto.
  destruct (hop_run_count D L h _ _ _ _ [] c r (base_init D d0) (counts_init D d0) CH ND (fun _ _ => conj eq_refl (fun H => H)) R) as (f' & on' & _ & [NR NL NO NA]).
  cbn [app] in *. pose proof (link_cur D c _ NR NL) as LC. split.
  - intros (k & K). destruct (c_own D c) as [|x l] eqn:OW; [|exists (fst x)].
    + destruct LC as (_ & LC). rewrite LC in K; auto. discriminate.
    + destruct (NO x) as (LV & _ & I); [now left|]. auto.
  - intros (i & I & LV). destruct (in_force None r) as [k|] eqn:Z; [eauto|]. exfalso.
    pose proof (NA i I LV) as X. destruct LC as (LC & _). rewrite (LC eq_refl) in X. destruct X.
Qed.
Print Assumptions C53_ref_count.

(** Two observers share the source, which is released when both left and subscribed again for
    the third; its end completes the third one and a late fourth one. *)
Definition rc_hist : list (hop nat) :=
  [HRef 0; HSrc 0 (Next 1); HRef 1; HSrc 0 (Next 2); HUnsub 0; HSrc 0 (Next 3); HUnsub 1; HSrc 0 (Next 4);
   HRef 2; HSrc 0 (Next 5); HSrc 1 (Next 6); HSrc 1 Done; HRef 3].
Example C53_ref_case : NoDup (hsubs rc_hist) /\ counted rc_hist /\
  exists c r, hop_run plain (cn_init plain o_init) rc_hist = Some (c, r) /\
    map snd r = [[JOn 0]; [JEmit (Next 1)]; []; [JEmit (Next 2)]; []; [JEmit (Next 3)]; [JOff 0]; []; [JOn 1]; []; [JEmit (Next 6)]; [JEmit Done; JOff 1]; []] /\
    o_log (s_sub plain (c_g plain c) 0) = [Next 1; Next 2] /\ o_log (s_sub plain (c_g plain c) 1) = [Next 2; Next 3] /\
    o_log (s_sub plain (c_g plain c) 2) = [Next 6; Done] /\ o_log (s_sub plain (c_g plain c) 3) = [Done].
Proof.
  split; [repeat constructor; cbn; intuition congruence|]. split; [repeat constructor|].
  eexists. eexists. split; [vm_compute; reflexivity|]. repeat split; reflexivity.
Qed.
Definition con_hist : list (hop nat) :=
  [HSub 0; HConnect; HConnect; HSrc 0 (Next 1); HCut 0; HSrc 0 (Next 2); HConnect; HSrc 2 (Next 3); HSrc 2 Done; HConnect].
Example C53_connect_case : NoDup (hsubs con_hist) /\ uncounted con_hist /\
  exists c r, hop_run plain (cn_init plain o_init) con_hist = Some (c, r) /\
    map snd r = [[]; [JOn 0]; []; [JEmit (Next 1)]; [JOff 0]; []; [JOn 2]; [JEmit (Next 3)]; [JEmit Done; JOff 2]; []] /\
    o_log (s_sub plain (c_g plain c) 0) = [Next 1; Next 3; Done].
Proof.
  split; [repeat constructor; cbn; intuition congruence|]. split; [repeat constructor|].
  eexists. eexists. split; [vm_compute; reflexivity|]. repeat split; reflexivity.
Qed.
