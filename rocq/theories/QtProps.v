(** C73: the Qt main thread scheduler. *)
From Coq Require Import ZArith NArith Permutation.
From Verif Require Import Base QueueSpec SchedSpec LoopSpec LoopBase LoopAbs EvSpec EvAbs StrandModel StrandProofs StrandProps QtModel QtProofs.
Open Scope Z_scope.

Lemma q_run_exec : forall kind beh onerr t0 ap ms tr s, q_exec kind beh onerr t0 ap tr s -> forall tr2 s2, q_run kind beh onerr s ms = (tr2, s2) ->
  q_exec kind beh onerr t0 ap (tr ++ tr2) s2.
Proof.
  induction ms as [|m ms IH]; intros tr s X tr2 s2 E; cbn [q_run] in E.
  - injection E as <- <-. now rewrite app_nil_r.
  - destruct (q_move kind beh onerr s m) as [[s' ls]|] eqn:M; [|eauto].
    destruct (q_run kind beh onerr s' ms) as [tr3 s3] eqn:R. injection E as <- <-. rewrite app_assoc.
    eapply IH; [|exact R]. econstructor; eauto.
Qed.
Lemma q_run_ok : forall kind beh onerr t0 ap ms, q_exec kind beh onerr t0 ap (fst (q_run kind beh onerr (q_init t0 ap) ms)) (snd (q_run kind beh onerr (q_init t0 ap) ms)).
Proof. intros. destruct (q_run kind beh onerr (q_init t0 ap) ms) as [tr s] eqn:E. apply (q_run_exec _ _ _ _ _ ms [] _ (q_exec_0 _ _ _ _ _) _ _ E). Qed.

(** *** A case.  Code 0 asks for 1 in 2.5 ms and for 2 at once, and is repeated 3 ms after its
    end, once; 1 throws; 2 is repeated once with period 20 ms; 3 disposes handler 9; 5 does
    nothing.  Before the application there is one call (task 0). *)
Definition qk (code : nat) : skind := match code with 2%nat => KThis | _ => KNow end.
Definition qb (code run : nat) : list qact * sres :=
  match code, run with
  | 0, 0 => ([QFor 2500000 1 7; QFor 0 2 7], RAgain (3 * ms))
  | 1, _ => ([], RThrow)
  | 2, 0 => ([], RAgain (20 * ms))
  | 3, _ => ([QDisp 9], RStop)
  | _, _ => ([], RStop)
  end%nat.
Definition qgo := ([QPost] ++ repeat QStep 6 ++ [QTimer 0] ++ repeat QStep 6)%list.
Definition q_ex := q_run qk qb (fun _ => []) (q_init 0 false)
  ([QUser (QFor 0 5 6); QApp; QUser (QFor 0 3 8); QUser (QFor 900000 0 8); QUser (QTo 500 5 9); QTick 1] ++ qgo ++ qgo ++ qgo ++ qgo ++
   [QTick 2000000] ++ qgo ++ [QTick 1000000] ++ qgo ++ [QTick 17000000] ++ qgo)%list.
Lemma q_ex_ok : q_exec qk qb (fun _ => []) 0 false (fst q_ex) (snd q_ex).
Proof. apply q_run_ok. Qed.

(** ** Times *)
(** A run is at most 1 ms early; repeated with delay_from_this_timepoint, that much more with
    every repetition. *)
Theorem C73_early_partial : forall kind beh onerr t0 ap tr s a t id b, q_exec kind beh onerr t0 ap tr s -> tr = a ++ (t, LStart id) :: b ->
  exists h k x, asked a id = Some (h, k, x) /\ x - t < 1000000 * match k with KThis => 1 + Z.of_nat (length (intervals a id)) | _ => 1 end.
Proof.
  intros kind beh onerr t0 ap tr s a t id b X E.
  destruct (q_locate _ _ _ _ _ _ _ X _ _ _ E) as (tr1 & s1 & m & ls & s2 & l1 & l2 & X1 & M & EL & -> & X2 & l3 & ->).
  destruct (move_qev _ _ _ _ _ _ _ M _ _ _ EL) as [T W]. cbn in T, W. subst t. destruct W as (-> & -> & PC & u & EI & H). rewrite app_nil_r.
  pose proof (qinv_exec _ _ _ _ _ _ _ X1) as [V1 V2 _]. pose proof (qexec_abs _ _ _ _ _ _ _ X1) as B1.
  assert (IN : In (core u) (btasks (qabs s1))).
  { apply in_bt. destruct H as [(r & ->) | [H _]]; [left; now left | tauto]. }
  pose proof (b_asked _ _ _ _ B1 _ IN) as A. pose proof (b_runs _ _ _ _ B1 _ IN) as R. cbn [core at_tp t_id t_h t_k t_due t_runs] in A, R. rewrite EI in A, R.
  do 3 eexists. split; [exact A|]. rewrite <- R.
  assert (L : t_due u < q_now s1 + early u).
  { destruct H as [(r & Q) | [H1 H2]]; [rewrite Q in V1; now apply Forall_inv in V1|]. rewrite Forall_forall in V2. specialize (V2 _ H1). lia. }
  unfold early, ms in L. destruct (t_k u); lia.
Qed.
Print Assumptions C73_early_partial.
(** The whole milliseconds of the delay are waited: r is the moment of the request, x the time
    asked for; not so with delay_from_this_timepoint, after the first run. *)
Theorem C73_whole_ms : forall kind beh onerr t0 ap tr s a t id b, q_exec kind beh onerr t0 ap tr s -> tr = a ++ (t, LStart id) :: b ->
  exists h k x r, asked a id = Some (h, k, x) /\ requested a id = Some r /\
    (k <> KThis \/ intervals a id = [] -> r + (x - r) / 1000000 * 1000000 <= t).
Proof.
  intros kind beh onerr t0 ap tr s a t id b X E.
  destruct (q_locate _ _ _ _ _ _ _ X _ _ _ E) as (tr1 & s1 & m & ls & s2 & l1 & l2 & X1 & M & EL & -> & X2 & l3 & ->).
  destruct (move_qev _ _ _ _ _ _ _ M _ _ _ EL) as [T W]. cbn in T, W. subst t. destruct W as (-> & -> & PC & u & EI & H). rewrite app_nil_r.
  pose proof (pinv_exec _ _ _ _ _ _ _ X1) as [V1 V2 _]. pose proof (qexec_abs _ _ _ _ _ _ _ X1) as B1.
  assert (IN : In (core u) (btasks (qabs s1))).
  { apply in_bt. destruct H as [(r & ->) | [H _]]; [left; now left | tauto]. }
  pose proof (b_asked _ _ _ _ B1 _ IN) as A. pose proof (b_runs _ _ _ _ B1 _ IN) as R. cbn [core at_tp t_id t_h t_k t_due t_runs] in A, R. rewrite EI in A, R.
  destruct (asked_requested _ _ _ A) as (r & RQ). do 4 eexists. split; [exact A|]. split; [exact RQ|]. intro K.
  assert (PL : plain u) by (destruct K as [K|K]; [now left | right; rewrite R, K; reflexivity]).
  rewrite <- EI in RQ. change 1000000 with ms. destruct H as [(q & Q) | [H1 H2]].
  - rewrite Q in V1. apply Forall_inv in V1. exact (V1 _ RQ PL).
  - rewrite Forall_forall in V2. specialize (V2 _ H1 _ RQ PL). lia.
Qed.
Print Assumptions C73_whole_ms.
(** So with a delay of whole milliseconds no run is early. *)
Theorem C73_not_before_due : forall kind beh onerr t0 ap tr s a t id b h k x r, q_exec kind beh onerr t0 ap tr s -> tr = a ++ (t, LStart id) :: b ->
  asked a id = Some (h, k, x) -> requested a id = Some r -> k <> KThis \/ intervals a id = [] -> (x - r) mod 1000000 = 0 -> x <= t.
Proof.
  intros kind beh onerr t0 ap tr s a t id b h k x r X E A R K Z0.
  destruct (C73_whole_ms _ _ _ _ _ _ _ _ _ _ _ X E) as (h' & k' & x' & r' & A' & R' & L).
  rewrite A in A'. injection A' as <- <- <-. rewrite R in R'. injection R' as <-. specialize (L K). pose proof (Z.div_mod (x - r) 1000000). lia.
Qed.
Print Assumptions C73_not_before_due.
(** What the event loop is asked for: with d the delay, a timer for the whole milliseconds in
    d, or none if there are none.  d is counted from the request, except when
    delay_from_this_timepoint repeats a run: then from the beginning of that run. *)
Theorem C73_timer : forall kind beh onerr t0 ap tr s a t e id b, q_exec kind beh onerr t0 ap tr s -> tr = a ++ (t, e) :: b ->
  e = LPick id \/ (exists tp, e = LAgain id tp) ->
  exists h k x r d, asked a id = Some (h, k, x) /\ requested a id = Some r /\
    (k <> KThis \/ intervals a id = [] -> d = x - r) /\
    (k = KThis -> intervals a id <> [] -> exists c l v, started a id = Some c /\ intervals a id = l ++ [v] /\ d = c + v - r) /\
    (e = LPick id /\ d < 1000000 \/ e = LAgain id (t + d / 1000000 * 1000000) /\ 1000000 <= d).
Proof.
  intros kind beh onerr t0 ap tr s a t e id b X E SH.
  destruct (q_locate _ _ _ _ _ _ _ X _ _ _ E) as (tr1 & s1 & m & ls & s2 & l1 & l2 & X1 & M & EL & -> & X2 & l3 & ->).
  destruct (move_qev _ _ _ _ _ _ _ M _ _ _ EL) as [T W]. cbn [fst snd] in T, W. subst t.
  assert (FD : from_defer s1 l1 l2 id e) by (destruct SH as [-> | [tp ->]]; exact W). clear W.
  assert (DO : forall h d, defer_ok (q_app s1) (q_now s1) id h d e -> e = LPick id /\ d < 1000000 \/ e = LAgain id (q_now s1 + d / 1000000 * 1000000) /\ 1000000 <= d).
  { intros h d [[_ D] | [[_ [L D]] | [_ [L D]]]]; [|left; auto | right; auto]. destruct SH as [-> | [tp ->]]; discriminate. }
  destruct FD as (-> & [(-> & u & d & pc & PC & EI & D) | (h & k & x & EI & -> & D)]).
  - rewrite app_nil_r. pose proof (qexec_abs _ _ _ _ _ _ _ X1) as B1.
    assert (IN : In (core u) (btasks (qabs s1))) by (apply in_bt; right; right; left; rewrite PC; now left).
    pose proof (b_asked _ _ _ _ B1 _ IN) as A. pose proof (b_runs _ _ _ _ B1 _ IN) as R. cbn [core at_tp t_id t_h t_k t_due t_runs] in A, R. rewrite EI in A, R.
    destruct (asked_requested _ _ _ A) as (r & RQ). exists (t_h u), (t_k u), (t_due u), r, d. split; auto. split; auto.
    pose proof (pinv_exec _ _ _ _ _ _ _ X1) as [_ _ V]. rewrite PC in V. apply Forall_inv in V. cbn in V. rewrite EI in V. destruct (V _ RQ) as (_ & V1 & V2).
    split; [|split; [|apply (DO _ _ D)]].
    + intro K. assert (PL : plain u) by (destruct K as [K|K]; [now left | right; rewrite R, K; reflexivity]). rewrite (V1 PL). lia.
    + intros K N. apply V2. intros [PL|PL]; [congruence|]. apply N. rewrite R in PL. now apply length_zero_iff_nil.
  - assert (N0 : intervals (tr1 ++ [(q_now s1, LCall VWorker id h k x)]) id = []).
    { unfold intervals. rewrite flat_map_app. cbn. rewrite app_nil_r. destruct (qids_inv _ _ _ _ _ _ _ X1) as (_ & _ & EV & _). subst id. clear - EV.
      induction tr1 as [|[t e] tr IH]; auto. cbn [flat_map snd]. rewrite IH by (intros; eapply EV; [right; eauto | eauto]).
      destruct e; auto. destruct r; auto. destruct (Nat.eqb_spec id (q_next s1)); auto. specialize (EV _ _ id (or_introl eq_refl) eq_refl). lia. }
    exists h, k, x, (q_now s1), (x - q_now s1). split; [|split; [|split; [auto | split; [|apply (DO _ _ D)]]]].
    + unfold asked. rewrite fold_left_app. cbn. now rewrite Nat.eqb_refl.
    + unfold requested. rewrite fold_left_app. cbn. now rewrite Nat.eqb_refl.
    + intros _ NN. congruence.
Qed.
Print Assumptions C73_timer.
(** The first repetition in the example, asked for at 1 ns: 20 ms after the start. *)
Example C73_timer_case : happened (fst q_ex) (LAgain 5 20000001) /\ happened (fst q_ex) (LPick 2) /\ happened (fst q_ex) (LAgain 4 2000001).
Proof. repeat split; apply hasb_ok; vm_compute; reflexivity. Qed.
(** Task 2 was to run at 0.9 ms and ran at 1 ns; task 4 at 2.500001 ms, ran at 2.000001 ms; the
    repetition of 2 at 3.000001 ms. *)
Example C73_times_case : starts_at (fst q_ex) = [(1, 1%nat); (1, 2%nat); (1, 5%nat); (2000001, 4%nat); (3000001, 2%nat); (20000001, 5%nat)].
Proof. vm_compute. reflexivity. Qed.
Example C73_whole_ms_case : asked (fst q_ex) 2 = Some (8%nat, KNow, 3000001) /\ requested (fst q_ex) 2 = Some 1.
Proof. vm_compute. split; reflexivity. Qed.

(** Full statement: no run before the time asked for. *)
Definition C73_due_claim : Prop := forall kind beh onerr t0 ap tr s a t id b, q_exec kind beh onerr t0 ap tr s -> tr = a ++ (t, LStart id) :: b ->
  exists h k x, asked a id = Some (h, k, x) /\ x <= t.
(** A callable with period 10 ms that takes 1 ns, in an application with nothing else to do:
    the run number n + 1 comes n times 0.999999 ms before its time. *)
Definition ek (code : nat) : skind := KThis.
Definition eb (code run : nat) : list qact * sres := ([], RAgain 10000000).
Definition e_round := [QTick 1; QStep; QStep; QTick 9000000; QTimer 0].
Theorem C73_early_refuted : forall n : nat, exists tr s a t, q_exec ek eb (fun _ => []) 0 true tr s /\ tr = a ++ [(t, LStart 0)] /\
  asked a 0 = Some (0%nat, KThis, 10000000 * Z.of_nat n) /\ 10000000 * Z.of_nat n - t = 999999 * Z.of_nat n.
Proof.
  assert (G : forall n : nat, exists a t0, q_exec ek eb (fun _ => []) 0 true (a ++ [(9000001 * Z.of_nat n, LStart 0)])
      (QState (9000001 * Z.of_nat n) true [] [] [QRet (Task 0 0 KThis 0 n (10000000 * Z.of_nat n) t0) (RAgain 10000000) (9000001 * Z.of_nat n)] [] 1) /\
    asked a 0 = Some (0%nat, KThis, 10000000 * Z.of_nat n)).
  { induction n as [|n (a & t0 & X & A)].
    - exists [(0, LCall VWorker 0 0 KThis 0); (0, LPick 0)], 0. split; [|reflexivity].
      apply (q_run_exec ek eb (fun _ => []) 0 true [QUser (QFor 0 0 0); QPost] [] (q_init 0 true) (q_exec_0 _ _ _ _ _)). vm_compute. reflexivity.
    - set (c := 9000001 * Z.of_nat n) in *. assert (EC : 9000001 * Z.of_nat (S n) = c + 1 + 9000000) by (unfold c; lia). rewrite EC.
      eexists (a ++ [(c, LStart 0); (c + 1, LEnd 0 (RAgain 10000000)); (c + 1, LAgain 0 (c + 1 + 9000000))]), (c + 1 + 9000000). split.
      + replace ((a ++ [(c, LStart 0); (c + 1, LEnd 0 (RAgain 10000000)); (c + 1, LAgain 0 (c + 1 + 9000000))]) ++ [(c + 1 + 9000000, LStart 0)])
          with ((a ++ [(c, LStart 0)]) ++ [(c + 1, LEnd 0 (RAgain 10000000)); (c + 1, LAgain 0 (c + 1 + 9000000)); (c + 1 + 9000000, LStart 0)])
          by (rewrite <- !app_assoc; reflexivity).
        apply (q_run_exec _ _ _ _ _ e_round _ _ X). clearbody c. unfold e_round.
        cbn [q_run q_move q_now q_app q_posted q_timers q_pc q_dead q_next q_with app t_id t_h t_k t_code t_runs t_due t_tp Z.of_N ran next_due q_delay].
        unfold q_defer. cbn [q_with q_now q_app q_posted q_timers q_pc q_dead q_next negb].
        replace (c + 10000000 - (c + 1)) with 9999999 by lia. change (Z.max 0 9999999 / ms) with 9. cbn [Z.eqb]. change (9 * ms) with 9000000.
        cbn [q_run q_move q_now q_app q_posted q_timers q_pc q_dead q_next q_with app map nth_error at_tp t_id t_h t_k t_code t_runs t_due t_tp Z.of_N].
        rewrite Z.leb_refl. unfold q_call. cbn [eb q_with q_now q_app q_posted q_timers q_pc q_dead q_next del dead existsb t_code t_runs t_h t_id map app q_run].
        unfold q_with, ran, next_due, at_tp. cbn [t_id t_h t_k t_code t_runs t_due t_tp q_now q_app q_posted q_timers q_pc q_dead q_next].
        replace (10000000 * Z.of_nat n + 10000000) with (10000000 * Z.of_nat (S n)) by lia. reflexivity.
      + unfold asked in *. rewrite fold_left_app. unfold ltev in *. rewrite A. cbn [fold_left asked1 snd fst Nat.eqb]. do 2 f_equal. lia. }
  intro n. destruct (G n) as (a & t0 & X & A). do 4 eexists. split; [exact X|]. split; [reflexivity|]. split; [exact A | lia].
Qed.
Print Assumptions C73_early_refuted.
Theorem C73_due_refuted : ~ C73_due_claim.
Proof.
  intro C. destruct (C73_early_refuted 1) as (tr & s & a & t & X & -> & A & L).
  destruct (C _ _ _ _ _ _ _ _ _ _ _ X eq_refl) as (h & k & x & A' & L'). rewrite A in A'. injection A' as _ _ <-. lia.
Qed.
Print Assumptions C73_due_refuted.
Theorem C73_period : forall kind beh onerr t0 ap tr s id h x, q_exec kind beh onerr t0 ap tr s -> asked tr id = Some (h, KThis, x) ->
  exists f, lfirst tr id = Some f /\ x = f + zsum (intervals tr id).
Proof. intros kind beh onerr t0 ap tr s id h x X A. pose proof (qexec_abs _ _ _ _ _ _ _ X) as B. eapply b_period; eauto. Qed.
Print Assumptions C73_period.
Example C73_period_case : asked (fst q_ex) 5 = Some (7%nat, KThis, 20000001) /\ lfirst (fst q_ex) 5 = Some 1 /\ intervals (fst q_ex) 5 = [20000000].
Proof. vm_compute. repeat split; reflexivity. Qed.

(** ** No application *)
Theorem C73_no_application : forall kind beh onerr t0 ap tr s, q_exec kind beh onerr t0 ap tr s -> q_app s = false ->
  (forall a t v id h k tp b, tr = a ++ (t, LCall v id h k tp) :: b -> exists b', b = (t, LErr id h) :: b') /\
  (forall id, ~ happened tr (LStart id)).
Proof.
  intros kind beh onerr t0 ap tr s X AP.
  assert (ALL : forall a x b, tr = a ++ x :: b -> exists s1 m s2 ls l1 l2 l3, q_app s1 = false /\ q_pc s1 = [] /\ q_posted s1 = [] /\ q_timers s1 = [] /\
    q_move kind beh onerr s1 m = Some (s2, ls) /\ ls = l1 ++ x :: l2 /\ b = l2 ++ l3).
  { induction X as [|tr s m ls s' X IH M]; intros a x b E; [destruct a; discriminate|].
    assert (A0 : q_app s = false) by (destruct (q_app s) eqn:A0; auto; rewrite (move_app _ _ _ _ _ _ _ M A0) in AP; discriminate).
    assert (H : (exists l1, ls = l1 ++ x :: b /\ a = tr ++ l1) \/ exists b', tr = a ++ x :: b' /\ b = b' ++ ls).
    { clear - E. revert tr E. induction a as [|y a IH]; intros tr E.
      - destruct tr as [|z tr]; cbn in E; [left; exists []; auto|]. injection E as -> E. right. exists tr. auto.
      - destruct tr as [|z tr]; cbn in E; [left; exists (y :: a); auto|]. injection E as -> E. destruct (IH _ E) as [(l1 & -> & ->) | (b' & -> & ->)]; [left; exists l1; auto | right; exists b'; auto]. }
    destruct H as [(l1 & -> & ->) | (b' & -> & ->)].
    - destruct (no_app _ _ _ _ _ _ _ X A0) as (P1 & P2 & P3). exists s, m, s', (l1 ++ x :: b), l1, b, []. rewrite app_nil_r. auto 9.
    - destruct (IH A0 _ _ _ eq_refl) as (s1 & m1 & s2 & ls1 & l1 & l2 & l3 & Q1 & Q2 & Q3 & Q4 & Q5 & Q6 & ->).
      exists s1, m1, s2, ls1, l1, l2, (l3 ++ ls). rewrite app_assoc. auto 9. }
  split.
  - intros a t v id h k tp b E. destruct (ALL _ _ _ E) as (s1 & m & s2 & ls & l1 & l2 & l3 & A1 & _ & _ & _ & M & EL & ->).
    destruct (move_qev _ _ _ _ _ _ _ M _ _ _ EL) as [T W]. cbn in T, W. destruct W as (_ & _ & _ & e & -> & [[_ ->] | [[W _] | [W _]]]); [|congruence ..]. rewrite T. cbn. eauto.
  - intros id (t & I). destruct (in_split _ _ I) as (a & b & E). destruct (ALL _ _ _ E) as (s1 & m & s2 & ls & l1 & l2 & l3 & A1 & P1 & P2 & P3 & M & EL & _).
    destruct (move_qev _ _ _ _ _ _ _ M _ _ _ EL) as [_ W]. cbn in W. destruct W as (_ & _ & _ & u & _ & [(r & W) | [W _]]); [rewrite P2 in W; discriminate | rewrite P3 in W; contradiction].
Qed.
Print Assumptions C73_no_application.
(** Task 0 of the example was asked for before the application. *)
Example C73_no_application_case : firstn 2 (fst q_ex) = [(0, LCall VWorker 0 6 KNow 0); (0, LErr 0 6)].
Proof. vm_compute. reflexivity. Qed.
(** An error is reported to the handler of the task, once, and the task is gone with it; with an
    application there are none. *)
Theorem C73_errors : forall kind beh onerr t0 ap tr s, q_exec kind beh onerr t0 ap tr s ->
  (forall a t id h b, tr = a ++ (t, LErr id h) :: b -> (exists k x, asked a id = Some (h, k, x)) /\ (forall t' e, In (t', e) b -> id_of e <> Some id)) /\
  (ap = true -> forall id h, ~ happened tr (LErr id h)).
Proof.
  intros kind beh onerr t0 ap tr s X. split.
  - intros a t id h b E. split.
    + destruct (q_locate _ _ _ _ _ _ _ X _ _ _ E) as (tr1 & s1 & m & ls & s2 & l1 & l2 & X1 & M & EL & -> & X2 & l3 & ->).
      destruct (move_qev _ _ _ _ _ _ _ M _ _ _ EL) as [T W]. cbn in T, W. apply err_qev in W. destruct W as (-> & _ & [(-> & u & I & <- & <-) | (k & tp & _ & ->)]).
      * rewrite app_nil_r. pose proof (qexec_abs _ _ _ _ _ _ _ X1) as B1.
        exists (t_k u), (t_due u). apply (b_asked _ _ _ _ B1 (core u)). apply in_bt. tauto.
      * exists k, tp. unfold asked. rewrite fold_left_app. cbn. now rewrite Nat.eqb_refl.
    + intros t' e I Q. destruct (in_split _ _ I) as (p & q & ->).
      assert (E' : tr = (a ++ (t, LErr id h) :: p) ++ (t', e) :: q) by (rewrite E, <- app_assoc; reflexivity).
      assert (SE : settled (a ++ (t, LErr id h) :: p) id) by (right; exists h, t; apply in_elt).
      pose proof (qexec_abs _ _ _ _ _ _ _ X) as B. destruct (g_over _ _ _ _ B _ _ _ _ id E' SE Q) as (h' & ->).
      destruct (q_locate _ _ _ _ _ _ _ X _ _ _ E') as (tr1 & s1 & m & ls & s2 & l1 & l2 & X1 & M & EL & EA & X2 & _).
      destruct (qids_inv _ _ _ _ _ _ _ X1) as (_ & _ & EV & ST).
      destruct (move_qev _ _ _ _ _ _ _ M _ _ _ EL) as [T W]. cbn in T, W. apply err_qev in W. destruct W as (_ & _ & [(-> & u & IU & EI & _) | (k & tp & EI & ->)]).
      * rewrite app_nil_r in EA. rewrite EA in SE. apply (ST _ SE). rewrite <- EI. unfold qids. rewrite !in_app_iff. right. right. left. now apply in_map.
      * assert (J : In (t, LErr id h) (tr1 ++ [(q_now s1, LCall VWorker id h' k tp)])) by (rewrite <- EA; apply in_elt).
        apply in_app_or in J. destruct J as [J|[J|[]]]; [|discriminate]. specialize (EV _ _ _ J eq_refl). lia.
  - intros -> id h (t & I). destruct (in_split _ _ I) as (a & b & E).
    destruct (q_locate _ _ _ _ _ _ _ X _ _ _ E) as (tr1 & s1 & m & ls & s2 & l1 & l2 & X1 & M & EL & _ & _).
    destruct (move_qev _ _ _ _ _ _ _ M _ _ _ EL) as [_ W]. cbn in W. apply err_qev in W. destruct W as (_ & W & _). rewrite (exec_app _ _ _ _ _ _ X1) in W. discriminate.
Qed.
Print Assumptions C73_errors.
(** Full statement: the exception of a task is reported to its handler. *)
Definition C73_error_claim : Prop := forall kind beh onerr t0 ap tr s id, q_exec kind beh onerr t0 ap tr s ->
  happened tr (LEnd id RThrow) -> exists h, happened tr (LErr id h).
Theorem C73_error_reported_refuted : ~ C73_error_claim.
Proof.
  intro C. destruct (C _ _ _ _ _ _ _ 4%nat q_ex_ok) as (h & t & H).
  - apply hasb_ok. vm_compute. reflexivity.
  - assert (N : forallb (fun e : ltev => match snd e with LErr 4 _ => false | _ => true end) (fst q_ex) = true) by (vm_compute; reflexivity).
    rewrite forallb_forall in N. specialize (N _ H). discriminate.
Qed.
Print Assumptions C73_error_reported_refuted.

(** ** Disposal *)
Theorem C73_disposed : forall kind beh onerr t0 ap tr s, q_exec kind beh onerr t0 ap tr s ->
  (forall a t id b, tr = a ++ (t, LStart id) :: b -> exists h k x, asked a id = Some (h, k, x) /\ ~ gone a h) /\
  (forall a t id b, tr = a ++ (t, LDrop id) :: b -> (exists h k x, asked a id = Some (h, k, x) /\ gone a h) /\
     forall t' e, In (t', e) b -> id_of e <> Some id).
Proof.
  intros kind beh onerr t0 ap tr s X. pose proof (qexec_abs _ _ _ _ _ _ _ X) as B. split.
  - intros a t id b E. destruct (g_start _ _ _ _ B _ _ _ _ E) as (h & k & x & A & _ & G & _). eauto 6.
  - intros a t id b E. split; [eapply g_drop; eauto|]. intros t' e I Q. destruct (in_split _ _ I) as (p & q & ->).
    assert (E' : tr = (a ++ (t, LDrop id) :: p) ++ (t', e) :: q) by (rewrite E, <- app_assoc; reflexivity).
    assert (SE : settled (a ++ (t, LDrop id) :: p) id) by (left; left; exists t; apply in_elt).
    destruct (g_over _ _ _ _ B _ _ _ _ id E' SE Q) as (h' & ->).
    destruct (q_locate _ _ _ _ _ _ _ X _ _ _ E') as (tr1 & s1 & m & ls & s2 & l1 & l2 & X1 & M & EL & EA & X2 & _).
    destruct (qids_inv _ _ _ _ _ _ _ X1) as (_ & _ & EV & ST).
    destruct (move_qev _ _ _ _ _ _ _ M _ _ _ EL) as [T W]. cbn in T, W. apply err_qev in W. destruct W as (_ & _ & [(-> & u & IU & EI & _) | (k & tp & EI & ->)]).
    + rewrite app_nil_r in EA. rewrite EA in SE. apply (ST _ SE). rewrite <- EI. unfold qids. rewrite !in_app_iff. right. right. left. now apply in_map.
    + assert (J : In (t, LDrop id) (tr1 ++ [(q_now s1, LCall VWorker id h' k tp)])) by (rewrite <- EA; apply in_elt).
      apply in_app_or in J. destruct J as [J|[J|[]]]; [|discriminate]. specialize (EV _ _ _ J eq_refl). lia.
Qed.
Print Assumptions C73_disposed.
Example C73_disposed_case : happened (fst q_ex) (LDrop 3) /\ ~ happened (fst q_ex) (LStart 3) /\ gone (fst q_ex) 9.
Proof.
  split; [|split].
  - apply hasb_ok. vm_compute. reflexivity.
  - apply hasb_no. vm_compute. reflexivity.
  - apply hasb_ok. vm_compute. reflexivity.
Qed.

(** ** One at a time; without a timer in the order of the calls *)
Theorem C73_one_at_a_time : forall kind beh onerr t0 ap tr s a t id b, q_exec kind beh onerr t0 ap tr s -> tr = a ++ (t, LStart id) :: b -> in_run a = [].
Proof.
  intros kind beh onerr t0 ap tr s a t id b X E.
  destruct (q_locate _ _ _ _ _ _ _ X _ _ _ E) as (tr1 & s1 & m & ls & s2 & l1 & l2 & X1 & M & EL & -> & _).
  destruct (move_qev _ _ _ _ _ _ _ M _ _ _ EL) as [_ W]. cbn in W. destruct W as (-> & _ & PC & _). rewrite app_nil_r.
  pose proof (b_inrun _ _ _ _ (qexec_abs _ _ _ _ _ _ _ X1)) as R. unfold qabs, qrun in R. rewrite PC in R. cbn in R.
  destruct (in_run tr1) as [|i l]; auto. destruct (proj1 (R i) (or_introl eq_refl)).
Qed.
Print Assumptions C73_one_at_a_time.
Theorem C73_order : forall kind beh onerr t0 ap tr s a t id b, q_exec kind beh onerr t0 ap tr s -> tr = a ++ (t, LStart id) :: b ->
  In id (postq a) -> exists l, postq a = id :: l.
Proof.
  intros kind beh onerr t0 ap tr s a t id b X E.
  destruct (q_locate _ _ _ _ _ _ _ X _ _ _ E) as (tr1 & s1 & m & ls & s2 & l1 & l2 & X1 & M & EL & -> & _).
  destruct (move_qev _ _ _ _ _ _ _ M _ _ _ EL) as [_ W]. cbn in W. destruct W as (-> & _ & PC & u & <- & H). rewrite app_nil_r, (post_inv _ _ _ _ _ _ _ X1).
  destruct (qids_inv _ _ _ _ _ _ _ X1) as (ND & _). destruct H as [(r & ->) | [H _]]; [cbn; eauto|]. intro J. exfalso.
  unfold qids in ND. apply (in_map t_id) in H. clear - ND J H.
  induction (q_posted s1) as [|y l IH]; [contradiction|]. cbn in ND, J. inversion ND as [|? ? NI ND']; subst. destruct J as [J|J]; [|auto].
  apply NI. rewrite J. apply in_or_app. right. apply in_or_app. auto.
Qed.
Print Assumptions C73_order.
Lemma post_keep : forall i j ls l, (forall t e, In (t, e) ls -> e <> LStart i /\ e <> LDrop i) ->
  (exists p q, l = p ++ i :: q /\ ~ In j p) -> exists p q, fold_left post1 ls l = p ++ i :: q /\ ~ In j p.
Proof.
  intros i j ls. induction ls as [|[t e] ls IH]; intros l H (p & q & E & NJ); [cbn; eauto|]. cbn [fold_left]. apply IH; [intros; eapply H; right; eauto|]. subst l.
  destruct (H t e (or_introl eq_refl)) as (H2 & H3).
  assert (FIL : forall x, x <> i -> exists p0 q0, filter (fun y => negb (Nat.eqb y x)) (p ++ i :: q) = p0 ++ i :: q0 /\ ~ In j p0).
  { intros x N. rewrite filter_app. cbn. destruct (Nat.eqb_spec i x); [congruence|]. cbn. do 2 eexists. split; [reflexivity|]. intro J. apply filter_In in J. tauto. }
  unfold post1. cbn [snd fst]. destruct e; eauto. exists p, (q ++ [id]). rewrite <- app_assoc. auto.
Qed.
Lemma postq_ev : forall tr i, In i (postq tr) -> exists t e, In (t, e) tr /\ id_of e = Some i.
Proof.
  intros tr i. induction tr as [|[t e] tr IH] using rev_ind; [contradiction|]. rewrite postq_app. cbn [fold_left].
  assert (L : In i (postq tr) -> exists t' e', In (t', e') (tr ++ [(t, e)]) /\ id_of e' = Some i).
  { intro J. destruct (IH J) as (t' & e' & A & B). exists t', e'. split; auto. apply in_or_app. auto. }
  unfold post1. cbn [snd fst]. destruct e; auto; try (intro J; apply filter_In in J; destruct J; auto).
  intro J. apply in_app_or in J. destruct J as [J|[J|[]]]; auto. exists t, (LPick id). split; [apply in_or_app; right; now left | cbn; congruence].
Qed.
Lemma post_in : forall j ls l, (forall t e, In (t, e) ls -> e <> LStart j /\ e <> LDrop j) -> In j l -> In j (fold_left post1 ls l).
Proof.
  intros j ls. induction ls as [|[t e] ls IH]; intros l H J; auto. cbn [fold_left]. apply IH; [intros; eapply H; right; eauto|].
  destruct (H t e (or_introl eq_refl)) as (H2 & H3). unfold post1. cbn [snd].
  destruct e; auto; try (apply filter_In; split; auto; apply Bool.negb_true_iff, Nat.eqb_neq; congruence). apply in_or_app. auto.
Qed.
(** Calls with a delay below 1 ms: first come, first served (first runs). *)
Theorem C73_fifo : forall kind beh onerr t0 tr s a1 t1 i h1 k1 x1 a2 t2 j h2 k2 x2 a3 t b, q_exec kind beh onerr t0 true tr s ->
  tr = a1 ++ (t1, LCall VWorker i h1 k1 x1) :: a2 ++ (t2, LCall VWorker j h2 k2 x2) :: a3 ++ (t, LStart j) :: b ->
  x1 - t1 < 1000000 -> x2 - t2 < 1000000 -> ~ happened a3 (LStart j) ->
  happened (a2 ++ a3) (LStart i) \/ happened (a2 ++ a3) (LDrop i).
Proof.
  intros kind beh onerr t0 tr s a1 t1 i h1 k1 x1 a2 t2 j h2 k2 x2 a3 t b X E L1 L2 FS.
  pose proof (qexec_abs _ _ _ _ _ _ _ X) as B.
  destruct (happened_dec (a2 ++ a3) (LStart i)) as [Y|N1]; [now left|]. destruct (happened_dec (a2 ++ a3) (LDrop i)) as [Y|N2]; [now right|]. exfalso.
  assert (EJ : tr = (a1 ++ (t1, LCall VWorker i h1 k1 x1) :: a2) ++ (t2, LCall VWorker j h2 k2 x2) :: a3 ++ (t, LStart j) :: b) by (rewrite E, <- app_assoc; reflexivity).
  destruct (b_locate _ _ _ _ B _ _ _ EJ) as (s1 & s2 & B1 & ST & _). pose proof (b_idinv _ _ _ _ B1) as [_ _ EV _ _].
  assert (JN : j = b_next s1) by (inversion ST; subst; auto; match goal with M : _ \/ (exists _, _) |- _ => destruct M as [|[]]; discriminate end).
  assert (FR : forall t e, In (t, e) (a1 ++ (t1, LCall VWorker i h1 k1 x1) :: a2) -> id_of e <> Some j) by (intros t' e I Q; specialize (EV _ _ _ I Q); lia).
  assert (IJ : i <> j) by (intros ->; apply (FR t1 (LCall VWorker j h1 k1 x1)); [apply in_elt | reflexivity]).
  assert (NEXT : forall a t v id h k x b, tr = a ++ (t, LCall v id h k x) :: b -> x - t < 1000000 -> exists b', b = (t, LPick id) :: b').
  { intros a t' v id h k x b' E' L. destruct (q_locate _ _ _ _ _ _ _ X _ _ _ E') as (tr1 & u1 & m & ls & u2 & l1 & l2 & X1 & M & EL & -> & _ & l3 & ->).
    destruct (move_qev _ _ _ _ _ _ _ M _ _ _ EL) as [T W]. cbn in T, W. rewrite (exec_app _ _ _ _ _ _ X1) in W.
    destruct W as (_ & _ & _ & e & -> & [[W _] | [[_ [_ ->]] | [_ [W _]]]]); [discriminate | cbn; rewrite T; eauto | unfold ms in W; lia]. }
  destruct (NEXT _ _ _ _ _ _ _ _ E L1) as (b1 & Q1).
  assert (P2 : exists a2', a2 = (t1, LPick i) :: a2').
  { destruct a2 as [|y a2]; cbn in Q1; [discriminate|]. injection Q1 as -> _. eauto. }
  destruct (NEXT _ _ _ _ _ _ _ _ EJ L2) as (b2 & Q2).
  assert (P3 : exists a3', a3 = (t2, LPick j) :: a3').
  { destruct a3 as [|y a3]; cbn in Q2; [discriminate|]. injection Q2 as -> _. eauto. }
  destruct P2 as (a2' & ->). destruct P3 as (a3' & ->).
  assert (KEEP : forall u, (forall t e, In (t, e) u -> e <> LStart i /\ e <> LDrop i) -> exists p q, fold_left post1 u (postq (a1 ++ [(t1, LCall VWorker i h1 k1 x1); (t1, LPick i)])) = p ++ i :: q /\ ~ In j p).
  { intros u HU. apply post_keep; auto. exists (postq a1), []. split; [rewrite postq_app; reflexivity|].
    intro J. destruct (postq_ev _ _ J) as (t' & e & I & Q). apply (FR t' e); auto. apply in_or_app. auto. }
  set (u := a2' ++ (t2, LCall VWorker j h2 k2 x2) :: (t2, LPick j) :: a3').
  assert (NU : forall t e, In (t, e) u -> e <> LStart i /\ e <> LDrop i).
  { intros t' e I. split; intros ->; [apply N1 | apply N2]; exists t'; unfold u in I; apply in_app_or in I; destruct I as [I|[I|I]]; try discriminate;
      apply in_or_app; [left; now right | right; exact I | left; now right | right; exact I]. }
  destruct (KEEP u NU) as (p & q & K & NP). rewrite <- postq_app in K.
  set (a := (a1 ++ [(t1, LCall VWorker i h1 k1 x1); (t1, LPick i)]) ++ u) in K.
  assert (EA : tr = a ++ (t, LStart j) :: b) by (rewrite E; unfold a, u; repeat (rewrite <- app_assoc; cbn [app]); reflexivity).
  assert (ND : ~ happened a3' (LDrop j)).
  { intros (t' & I). destruct (in_split _ _ I) as (c1 & c2 & ->).
    assert (E2 : tr = ((a1 ++ [(t1, LCall VWorker i h1 k1 x1); (t1, LPick i)]) ++ a2' ++ (t2, LCall VWorker j h2 k2 x2) :: (t2, LPick j) :: c1) ++ (t', LDrop j) :: c2 ++ (t, LStart j) :: b).
    { rewrite EA. unfold a, u. repeat (rewrite <- app_assoc; cbn [app]). reflexivity. }
    apply (proj2 (proj2 (C73_disposed _ _ _ _ _ _ _ X) _ _ _ _ E2) t (LStart j)); [apply in_elt | reflexivity]. }
  assert (INJ : In j (postq a)).
  { unfold a, u. rewrite app_assoc. rewrite postq_app. change ((t2, LCall VWorker j h2 k2 x2) :: (t2, LPick j) :: a3') with ([(t2, LCall VWorker j h2 k2 x2); (t2, LPick j)] ++ a3').
    rewrite fold_left_app. apply post_in.
    - intros t' e I. split; intros ->; [apply FS; exists t'; now right | apply ND; now exists t'].
    - cbn. apply in_or_app. right. now left. }
  destruct (C73_order _ _ _ _ _ _ _ _ _ _ _ X EA INJ) as (l & R). change (postq a = p ++ i :: q) in K. rewrite R in K. destruct p as [|y p]; cbn in K; injection K as K1 K2; [congruence|]. subst y. apply NP. now left.
Qed.
Print Assumptions C73_fifo.
Example C73_order_case : postq (firstn 8 (fst q_ex)) = [1; 2; 3]%nat /\ map snd (starts_at (fst q_ex)) = [1; 2; 5; 4; 2; 5]%nat.
Proof. vm_compute. split; reflexivity. Qed.

(** ** Nobody is forgotten *)
Theorem C73_all_run : forall kind beh onerr t0 ap tr s, q_exec kind beh onerr t0 ap tr s ->
  (forall d m, match m with QPost | QTimer _ | QStep => True | _ => False end ->
     forall s1 ls, q_move kind beh onerr s (QTick d) = Some (s1, ls) -> q_move kind beh onerr s1 m = None) ->
  forall id, called tr id -> settled tr id.
Proof.
  intros kind beh onerr t0 ap tr s X Q id C. pose proof (qexec_abs _ _ _ _ _ _ _ X) as B.
  assert (PC : q_pc s = []).
  { destruct (q_pc s) as [|it pc] eqn:PC; auto. specialize (Q 0%N QStep Logic.I _ _ eq_refl). cbn in Q. rewrite PC in Q.
    destruct it; [|discriminate|]; match type of Q with context [let '(_, _) := ?c in _] => destruct c as [[? ?] ?] end; discriminate. }
  assert (RE : q_posted s = []).
  { destruct (q_posted s) as [|e r] eqn:R; auto. specialize (Q 0%N QPost Logic.I _ _ eq_refl). cbn in Q. rewrite PC, R in Q. discriminate. }
  assert (TI : q_timers s = []).
  { destruct (q_timers s) as [|e r] eqn:R; auto.
    specialize (Q (Z.to_N (t_tp e - q_now s)) (QTimer 0) Logic.I _ _ eq_refl). cbn [q_move q_timers q_now q_pc] in Q. rewrite R, PC in Q. cbn [nth_error] in Q.
    replace (t_tp e <=? q_now s + Z.of_N (Z.to_N (t_tp e - q_now s))) with true in Q by (symmetry; apply Z.leb_le; lia). discriminate. }
  apply (g_all _ _ _ _ B); auto. unfold btasks, qabs, qbag, qrun. cbn. now rewrite PC, RE, TI.
Qed.
Print Assumptions C73_all_run.
Example C73_all_run_case : q_posted (snd q_ex) = [] /\ q_timers (snd q_ex) = [] /\ q_pc (snd q_ex) = [] /\ q_next (snd q_ex) = 6%nat.
Proof. vm_compute. repeat split; reflexivity. Qed.
Theorem C73_runs_asked : forall kind beh onerr t0 ap tr s id, q_exec kind beh onerr t0 ap tr s -> (times (is_start id) tr <= times (is_req id) tr)%nat.
Proof.
  intros kind beh onerr t0 ap tr s id X. pose proof (b_times _ _ _ _ (qexec_abs _ _ _ _ _ _ _ X) id). lia.
Qed.
Print Assumptions C73_runs_asked.
Example C73_runs_asked_case : times (is_start 5) (fst q_ex) = 2%nat /\ times (is_req 5) (fst q_ex) = 2%nat /\ times (is_start 3) (fst q_ex) = 0%nat.
Proof. vm_compute. repeat split; reflexivity. Qed.
