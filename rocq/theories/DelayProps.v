(** Final statements for delay (C43) and observe_on (C44). *)
From Verif Require Import Base Machine MachineProofs Concur ObserverModel ChainModel ChainProofs.
From Verif Require Import MultiSpec MultiLin MultiRace MultiProps DelaySpec DelayModel DelayProofs.

(** In every execution: what is shown is a beginning of what the source has emitted, in order,
    each event at least [delay] after it was accepted; callbacks do not overlap; none begins
    after disposal; the downstream observer is what these callbacks make of it; and when nothing
    can happen any more although the time has come, everything has been shown. *)
Definition delays {V} (clear : bool) (src : list (ev V)) : Prop :=
  forall (D : machine V), lawful D -> forall sync delay d0 workers clock kills tr s ts, mdisp D d0 = false ->
  gexec (ystep D clear sync delay) (d_init D src d0, d_threads workers clock kills) tr (s, ts) ->
  (exists rest, clip src = map fst (ins tr) ++ rest) /\
  delayed delay (ins tr) (shown tr) /\ serial false tr /\ stops tr /\
  (y_d s = mrun D d0 (map fst (shown tr)) \/ kills <> 0 /\ y_d s = mkill D (mrun D d0 (map fst (shown tr)))) /\
  (workers <> 0 \/ sync = true -> (forall ls c', ~ gstep (ystep D clear sync delay) (s, ts) ls c') ->
   (forall e t, In (e, t) (ins tr) -> t + delay <= y_now s) -> mdisp D (y_d s) = false -> map fst (shown tr) = clip src).

Lemma delays_ok : forall V clear (src : list (ev V)), clear = false \/ no_error src -> delays clear src.
Proof.
  intros V clear src O D LD sync delay d0 workers clock kills tr s ts DD X.
  destruct (delay_main D clear sync delay src d0 workers kills LD clock tr s ts DD X) as (C & T).
  split; [exact (c_prefix _ _ _ _ _ _ _ _ _ _ _ C)|]. split; [|split; [|split; [|split]]].
  - destruct T as [(_ & [TK RE (Sd & F & Q & Q1 & Q2 & _) AC BU])|(_ & [T|(T & _ & _ & x & _ & _ & _ & I & _)])]; auto.
    + unshelve (eapply delayed_of; eauto); auto.
    + destruct O as [O|O]; [congruence|]. now destruct (O x).
  - now apply (c_ser _ _ _ _ _ _ _ _ _ _ _ C).
  - exact (c_stop _ _ _ _ _ _ _ _ _ _ _ C).
  - destruct (c_d _ _ _ _ _ _ _ _ _ _ _ C) as [H|(H & _ & H1)]; auto.
  - intros W ST TI LV. eapply (delay_quiet D clear sync delay src d0 workers kills LD); eauto.
Qed.

Theorem C43_delay : forall V (src : list (ev V)), delays false src.
Proof. intros. apply delays_ok. auto. Qed.
Print Assumptions C43_delay.

(** A source that emits 1, 2 and completes, one worker thread, delay 5. *)
Definition dl_src : list (ev nat) := [Next 1; Next 2; Done].
Definition dl_ex := gtol (ystep plain false false 5) (reps [(0, 2); (2, 1); (0, 1); (1, 5); (3, 1); (1, 20); (0, 3); (4, 1); (1, 20)])
  (d_init plain dl_src o_init, d_threads 1 [3; 6; 50] 0).
Example C43_case : gexec (ystep plain false false 5) (d_init plain dl_src o_init, d_threads 1 [3; 6; 50] 0) (fst dl_ex) (snd dl_ex) /\
  ins (fst dl_ex) = [(Next 1, 0); (Next 2, 3); (Done, 9)] /\ shown (fst dl_ex) = [(Next 1, 9); (Next 2, 9); (Done, 59)] /\
  o_log (y_d (fst (snd dl_ex))) = [Next 1; Next 2; Done].
Proof. split; [apply gtol_sound|]. vm_compute. repeat split. Qed.

(** observe_on, sources that do not fail: the same. *)
Theorem C44_no_error_partial : forall V (src : list (ev V)), no_error src -> delays true src.
Proof. intros. apply delays_ok. auto. Qed.
Print Assumptions C44_no_error_partial.

(** Any source: values keep their order; only the error may overtake values. *)
Theorem C44_order : forall V (D : machine V), lawful D -> forall sync delay src d0 workers clock kills tr s ts, mdisp D d0 = false ->
  gexec (ystep D true sync delay) (d_init D src d0, d_threads workers clock kills) tr (s, ts) ->
  (exists rest, clip src = map fst (ins tr) ++ rest) /\ stops tr /\
  (delayed delay (ins tr) (shown tr) \/
   exists seen rest x t shown' t', ins tr = seen ++ rest ++ [(Err x, t)] /\ delayed delay seen shown' /\ shown tr = shown' ++ [(Err x, t')]).
Proof.
  intros V D LD sync delay src d0 workers clock kills tr s ts DD X.
  destruct (delay_main D true sync delay src d0 workers kills LD clock tr s ts DD X) as (C & T).
  split; [exact (c_prefix _ _ _ _ _ _ _ _ _ _ _ C)|]. split; [exact (c_stop _ _ _ _ _ _ _ _ _ _ _ C)|].
  destruct T as [(_ & [TK RE (Sd & F & Q & Q1 & Q2 & _) AC BU])|(_ & [T|(_ & seen & rest & x & t & o' & t' & _ & E1 & E2 & E3)])]; auto.
  - left. unshelve (eapply delayed_of; eauto); auto.
  - right. exists seen, rest, x, t, o', t'. split; auto. split; auto. exists seen, []. now rewrite app_nil_r.
Qed.
Print Assumptions C44_order.

(** Without that hypothesis callbacks overlap: the source's thread calls on_error itself
    (delay.hpp:119) while the worker is inside on_next (154). *)
Definition ob_src : list (ev nat) := [Next 1; Err 7].
Definition ob_ex := gtol (ystep plain true false 0) (reps [(0, 2); (1, 4); (0, 2)]) (d_init plain ob_src o_init, d_threads 1 [] 0).
Theorem C44_overlap_refuted : exists tr c,
  gexec (ystep plain true false 0) (d_init plain ob_src o_init, d_threads 1 [] 0) tr c /\
  shown tr = [(Next 1, 0); (Err 7, 0)] /\ ~ serial false tr.
Proof.
  exists (fst ob_ex), (snd ob_ex). split; [apply gtol_sound|]. vm_compute. split; auto. intros (_ & H & _). discriminate.
Qed.
Print Assumptions C44_overlap_refuted.
Example C44_case : gexec (ystep plain true true 2) (d_init plain dl_src o_init, d_threads 0 [9] 0)
   (fst (gtol (ystep plain true true 2) (reps [(0, 3); (1, 1); (0, 30)]) (d_init plain dl_src o_init, d_threads 0 [9] 0)))
   (snd (gtol (ystep plain true true 2) (reps [(0, 3); (1, 1); (0, 30)]) (d_init plain dl_src o_init, d_threads 0 [9] 0))) /\
  shown (fst (gtol (ystep plain true true 2) (reps [(0, 3); (1, 1); (0, 30)]) (d_init plain dl_src o_init, d_threads 0 [9] 0))) = [(Next 1, 9)].
Proof. split; [apply gtol_sound|]. vm_compute. reflexivity. Qed.
