(** Final statements for timeout (C47). *)
From Verif Require Import Base Machine MachineProofs Concur ObserverModel ChainModel ChainProofs.
From Verif Require Import MultiSpec MultiLin MultiRace MultiProps DelaySpec TmoSpec TmoModel TmoProofs.

(** What a run has to look like: the monitor accepts it, the callbacks are a beginning of the
    source's events followed by a beginning of the fallback's, the downstream observer is what
    they make of it, and if nothing can happen any more nothing is missing: before the source is
    released all of it was shown and the time has not come; afterwards all of the fallback. *)
Definition timeouts {V} (D : machine V) (single prompt : bool) (period : nat) (src fb : list (ev V)) (d0 : mst D) (kills : nat)
    (tr : list (tlab V)) (s : ust D) (ts : list (list uitem)) : Prop :=
  exists m, watch period prompt m_init tr = Some m /\
  (exists rest, clip src = of_src tr ++ rest) /\ (exists rest, clip fb = of_fb tr ++ rest) /\
  (u_d s = mrun D d0 (of_src tr ++ of_fb tr) \/ kills <> 0 /\ u_d s = mkill D (mrun D d0 (of_src tr ++ of_fb tr))) /\
  ((forall ls c', ~ gstep (ustep D single prompt period) (s, ts) ls c') -> mdisp D (u_d s) = false ->
   if m_rel m then m_sw m = true /\ of_fb tr = clip fb else of_src tr = clip src /\ u_now s < m_last m + period).

Lemma timeouts_ok : forall V (D : machine V), lawful D -> forall single prompt period src fb d0 ticks kills tr s ts, mdisp D d0 = false ->
  gexec (ustep D single prompt period) (u_init D period src fb d0, u_threads ticks kills) tr (s, ts) ->
  timeouts D single prompt period src fb d0 kills tr s ts \/
  single = false /\ exists tr' v t, tr = tr' ++ [CMoved v] /\ follows period prompt tr' /\ In (CSwitch t) tr'.
Proof.
  intros V D LD single prompt period src fb d0 ticks kills tr s ts DD X.
  destruct (tmo_main D single prompt period src fb d0 kills LD ticks tr s ts DD X) as [(last & dead & I)|(_ & H)]; auto. left.
  eexists. split; [exact (i_mon _ _ _ _ _ _ _ _ _ _ _ _ I)|]. split; [exact (i_pre _ _ _ _ _ _ _ _ _ _ _ _ I)|].
  split; [exact (i_pfb _ _ _ _ _ _ _ _ _ _ _ _ I)|]. split.
  - destruct (i_d _ _ _ _ _ _ _ _ _ _ _ _ I) as [H|(H & _ & H1)]; auto.
  - intros ST L. eapply (tmo_quiet D single prompt period src fb d0 kills LD) in X; eauto. exact (i_mon _ _ _ _ _ _ _ _ _ _ _ _ I).
Qed.

(** The timer's task and the source's events do not overlap (one thread): everything holds. *)
Theorem C47_single_thread_partial : forall V (D : machine V), lawful D -> forall prompt period src fb d0 ticks kills tr s ts, mdisp D d0 = false ->
  gexec (ustep D true prompt period) (u_init D period src fb d0, u_threads ticks kills) tr (s, ts) ->
  timeouts D true prompt period src fb d0 kills tr s ts.
Proof.
  intros V D LD prompt period src fb d0 ticks kills tr s ts DD X.
  destruct (timeouts_ok V D LD true prompt period src fb d0 ticks kills tr s ts DD X) as [H|(H & _)]; [auto|discriminate].
Qed.
Print Assumptions C47_single_thread_partial.

(** All interleavings: the same, unless a value of the source that was on its way when the
    fallback took over reaches the moved-from observer. *)
Theorem C47_threads_partial : forall V (D : machine V), lawful D -> forall prompt period src fb d0 ticks kills tr s ts, mdisp D d0 = false ->
  gexec (ustep D false prompt period) (u_init D period src fb d0, u_threads ticks kills) tr (s, ts) ->
  timeouts D false prompt period src fb d0 kills tr s ts \/
  exists tr' v t, tr = tr' ++ [CMoved v] /\ follows period prompt tr' /\ In (CSwitch t) tr'.
Proof.
  intros V D LD prompt period src fb d0 ticks kills tr s ts DD X.
  destruct (timeouts_ok V D LD false prompt period src fb d0 ticks kills tr s ts DD X) as [H|(_ & H)]; auto.
Qed.
Print Assumptions C47_threads_partial.

(** d = 3.  1 at 1, 2 at 3, then silence: switch at 6, the fallback's 9 and completion; the
    source's 5 comes too late. *)
Definition tm_src : list (ev nat) := [Next 1; Next 2; Next 5; Done].
Definition tm_cfg := (u_init plain 3 tm_src [Next 9; Done] o_init, u_threads 6 0).
Definition tm_ticks (from n : nat) : list (nat * nat) := map (fun k => (3 + from + k, 1)) (seq 0 n).
Definition tm_ex := gtol (ustep plain true true 3)
  (reps (tm_ticks 0 1 ++ [(0, 3)] ++ tm_ticks 1 2 ++ [(0, 3); (1, 9)] ++ tm_ticks 3 3 ++ [(1, 9); (0, 9); (2, 9)])) tm_cfg.
Example C47_case : gexec (ustep plain true true 3) tm_cfg (fst tm_ex) (snd tm_ex) /\
  fst tm_ex = [CSrc (Next 1) 1; CEnd 1; CSrc (Next 2) 3; CEnd 3; CRel 6; CSwitch 6; CFb (Next 9) 6; CEnd 6; CFb Done 6; CEnd 6] /\
  o_log (u_d (fst (snd tm_ex))) = [Next 1; Next 2; Next 9; Done].
Proof. split; [apply gtol_sound|]. vm_compute. repeat split. Qed.

(** on_next does not look again after taking the mutex (84-86): a value that passed the check
    before the switch is handed to the observer that was moved into the fallback (145). *)
Definition mv_cfg := (u_init plain 2 [Next 1] [Next 9] o_init, u_threads 2 0).
Definition mv_ex := gtol (ustep plain false false 2) (reps (tm_ticks 0 2 ++ [(0, 1); (1, 9); (0, 1)])) mv_cfg.
Theorem C47_moved_from_refuted : exists tr c, gexec (ustep plain false false 2) mv_cfg tr c /\ tr = [CRel 2; CSwitch 2; CMoved 1] /\ ~ follows 2 false tr.
Proof.
  exists (fst mv_ex), (snd mv_ex). split; [apply gtol_sound|]. split; [vm_compute; reflexivity|]. vm_compute. intro H. now apply H.
Qed.
Print Assumptions C47_moved_from_refuted.
