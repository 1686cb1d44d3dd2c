(** C72: the asio strand scheduler. *)
From Coq Require Import ZArith NArith Permutation.
From Verif Require Import Base QueueSpec SchedSpec LoopSpec LoopBase LoopAbs EvSpec EvAbs StrandModel StrandProofs.
Open Scope Z_scope.

Lemma s_run_exec : forall kind beh onerr t0 ms tr s, s_exec kind beh onerr t0 tr s -> forall tr2 s2, s_run kind beh onerr s ms = (tr2, s2) ->
  s_exec kind beh onerr t0 (tr ++ tr2) s2.
Proof.
  induction ms as [|m ms IH]; intros tr s X tr2 s2 E; cbn [s_run] in E.
  - injection E as <- <-. now rewrite app_nil_r.
  - destruct (s_move kind beh onerr s m) as [[s' ls]|] eqn:M; [|eauto].
    destruct (s_run kind beh onerr s' ms) as [tr3 s3] eqn:R. injection E as <- <-. rewrite app_assoc.
    eapply IH; [|exact R]. econstructor; eauto.
Qed.
Lemma s_run_ok : forall kind beh onerr t0 ms, s_exec kind beh onerr t0 (fst (s_run kind beh onerr (s_init t0) ms)) (snd (s_run kind beh onerr (s_init t0) ms)).
Proof. intros. destruct (s_run kind beh onerr (s_init t0) ms) as [tr s] eqn:E. apply (s_run_exec _ _ _ _ ms [] _ (s_exec_0 _ _ _ _) _ _ E). Qed.

Lemma via_excl : forall kind beh onerr t0 tr s, s_exec kind beh onerr t0 tr s -> forall id, by_worker tr id -> by_nested tr id -> False.
Proof.
  intros kind beh onerr t0 tr s X id (h & k & x & H) (h' & k' & x' & H'). destruct (exec_all _ _ _ _ _ _ X) as (_ & _ & B).
  destruct (b_call_once _ _ _ _ B _ _ _ _ _ _ _ _ _ H H') as (E & _). discriminate.
Qed.

(** *** A case: tasks of all kinds.  Code 0: asks through current_thread for 1 (in 5) and 2
    (at once), and is repeated once 10 after its end; 1 throws; 2 repeats with period 20,
    once; 3 disposes handler 9; 4 throws, submitted with the worker; 5 does nothing. *)
Definition sk (code : nat) : skind := match code with 2%nat => KThis | _ => KNow end.
Definition sb (code run : nat) : list sact * sres :=
  match code, run with
  | 0, 0 => ([ACur 5 1 7; ACur 0 2 7], RAgain 10)
  | 1, _ => ([], RThrow)
  | 2, 0 => ([], RAgain 20)
  | 3, _ => ([ADisp 9], RStop)
  | 4, _ => ([ACur 0 5 7], RThrow)
  | _, _ => ([], RStop)
  end%nat.
Definition srun := s_run sk sb (fun _ => []).
Definition all1 := [MRun; MStep; MStep; MStep; MStep; MStep; MStep; MStep; MStep].
Definition round := ([MFire 0; MFire 1; MFire 2; MFire 3] ++ all1 ++ all1)%list.
Definition s_ex := srun (s_init 0)
  ([MUser (AFor 0 3 8); MUser (AFor 0 0 8); MUser (AFor 30 4 8); MUser (AFor 0 5 9)] ++ all1 ++ [MTick 3] ++ all1 ++ round ++ round ++
   [MTick 10] ++ round ++ round ++ round ++ [MTick 30] ++ round ++ round ++ round)%list.
Definition starts_at (tr : list ltev) : list (Z * nat) := flat_map (fun e => match snd e with LStart i => [(fst e, i)] | _ => [] end) tr.
Lemma s_ex_ok : s_exec sk sb (fun _ => []) 0 (fst s_ex) (snd s_ex).
Proof. apply s_run_ok. Qed.

Lemma happened_dec : forall tr e, Decidable.decidable (happened tr e).
Proof. intros tr e. unfold Decidable.decidable. destruct (hasb tr e) eqn:H; [left; now apply hasb_ok | right; now apply hasb_no]. Qed.
Lemma readyq_ev : forall tr i, In i (readyq tr) -> exists t e, In (t, e) tr /\ id_of e = Some i.
Proof.
  intros tr i. induction tr as [|[t e] tr IH] using rev_ind; [contradiction|]. rewrite readyq_app. cbn [fold_left].
  assert (L : In i (readyq tr) -> exists t' e', In (t', e') (tr ++ [(t, e)]) /\ id_of e' = Some i).
  { intro J. destruct (IH J) as (t' & e' & A & B). exists t', e'. split; auto. apply in_or_app. auto. }
  assert (N : id_of e = Some i -> exists t' e', In (t', e') (tr ++ [(t, e)]) /\ id_of e' = Some i).
  { intro J. exists t, e. split; auto. apply in_or_app. right. now left. }
  unfold ready1. cbn [snd fst]. destruct e; auto; try (intro J; apply filter_In in J; destruct J; auto).
  - destruct v; auto. destruct (tp =? t); auto. intro J. apply in_app_or in J. destruct J as [J|[J|[]]]; auto. apply N. cbn. congruence.
  - intro J. apply in_app_or in J. destruct J as [J|[J|[]]]; auto. apply N. cbn. congruence.
Qed.
Lemma ready_keep : forall i j ls l, (forall t e, In (t, e) ls -> (forall tp, e <> LAgain i tp) /\ e <> LStart i /\ e <> LDrop i) ->
  (exists p q, l = p ++ i :: q /\ ~ In j p) -> exists p q, fold_left ready1 ls l = p ++ i :: q /\ ~ In j p.
Proof.
  intros i j ls. induction ls as [|[t e] ls IH]; intros l H (p & q & E & NJ); [cbn; eauto|]. cbn [fold_left]. apply IH; [intros; eapply H; right; eauto|]. subst l.
  destruct (H t e (or_introl eq_refl)) as (H1 & H2 & H3).
  assert (APP : forall x, exists p0 q0, (p ++ i :: q) ++ [x] = p0 ++ i :: q0 /\ ~ In j p0) by (intro x; exists p, (q ++ [x]); rewrite <- app_assoc; auto).
  assert (FIL : forall x, x <> i -> exists p0 q0, filter (fun y => negb (Nat.eqb y x)) (p ++ i :: q) = p0 ++ i :: q0 /\ ~ In j p0).
  { intros x N. rewrite filter_app. cbn. destruct (Nat.eqb_spec i x); [congruence|]. cbn. do 2 eexists. split; [reflexivity|]. intro J. apply filter_In in J. tauto. }
  unfold ready1. cbn [snd fst]. destruct e; eauto.
  - destruct v; eauto. destruct (tp =? t); eauto.
  - apply FIL. intros ->. now apply (H1 tp).
Qed.
Lemma min_timer : forall l : list entry, l <> [] -> exists i x, nth_error l i = Some x /\ forall y, In y l -> t_tp (e_t x) <= t_tp (e_t y).
Proof.
  induction l as [|e l IH]; [congruence|]. intros _. destruct l as [|e2 l].
  - exists 0%nat, e. split; auto. intros y [->|[]]. lia.
  - destruct IH as (i & x & N & M); [discriminate|]. destruct (Z.leb_spec (t_tp (e_t e)) (t_tp (e_t x))) as [L|L].
    + exists 0%nat, e. split; auto. intros y [->|I]; [lia|]. specialize (M _ I). lia.
    + exists (S i), x. split; auto. intros y [->|I]; [lia|]. auto.
Qed.

(** ** Times *)
Theorem C72_not_before_due : forall kind beh onerr t0 tr s a t id b, s_exec kind beh onerr t0 tr s -> tr = a ++ (t, LStart id) :: b ->
  exists h k x, asked a id = Some (h, k, x) /\ x <= t.
Proof.
  intros kind beh onerr t0 tr s a t id b X E. destruct (exec_all _ _ _ _ _ _ X) as (_ & _ & B).
  destruct (g_start _ _ _ _ B _ _ _ _ E) as (h & k & x & A & L & _). eauto 6.
Qed.
Print Assumptions C72_not_before_due.
Example C72_not_before_due_case : starts_at (fst s_ex) = [(0, 0%nat); (3, 1%nat); (3, 5%nat); (13, 4%nat); (13, 1%nat); (43, 5%nat); (43, 2%nat); (43, 6%nat)].
Proof. vm_compute. reflexivity. Qed.

(** ** Disposal *)
Theorem C72_disposed : forall kind beh onerr t0 tr s, s_exec kind beh onerr t0 tr s ->
  (forall a t id b, tr = a ++ (t, LStart id) :: b -> exists h k x, asked a id = Some (h, k, x) /\ ~ gone a h) /\
  (forall a t id b, tr = a ++ (t, LDrop id) :: b -> (exists h k x, asked a id = Some (h, k, x) /\ gone a h) /\
     forall t' e, In (t', e) b -> id_of e <> Some id).
Proof.
  intros kind beh onerr t0 tr s X. destruct (exec_all _ _ _ _ _ _ X) as (_ & _ & B). split.
  - intros a t id b E. destruct (g_start _ _ _ _ B _ _ _ _ E) as (h & k & x & A & _ & G & _). eauto 6.
  - intros a t id b E. split; [eapply g_drop; eauto|]. intros t' e I E2. destruct (in_split _ _ I) as (p & q & ->).
    assert (E' : tr = (a ++ (t, LDrop id) :: p) ++ (t', e) :: q) by (rewrite E, <- app_assoc; reflexivity).
    assert (SE : forall l, settled (a ++ (t, LDrop id) :: l) id) by (intro l; left; left; exists t; apply in_elt).
    destruct (g_over _ _ _ _ B _ _ _ _ id E' (SE _) E2) as (h & ->).
    { destruct (s_locate _ _ _ _ _ _ X _ _ _ E') as (tr1 & s1 & m & ls & s2 & l1 & l2 & X1 & M & -> & EA & _).
      pose proof (move_ev _ _ _ _ _ _ _ _ _ X1 M _ _ _ eq_refl) as W. cbn in W. destruct W as (_ & -> & NE & _).
      assert (E2' : a ++ (t, LDrop id) :: p = tr1 ++ [(s_now s1, LEnd id RThrow)]) by exact EA.
      destruct p as [|y p _] using rev_ind.
      * apply app_inj_tail in E2'. destruct E2' as [_ E2']. discriminate.
      * change ((t, LDrop id) :: p ++ [y]) with (((t, LDrop id) :: p) ++ [y]) in E2'. rewrite app_assoc in E2'. apply app_inj_tail in E2'. destruct E2' as [E3 ->].
        assert (E4 : tr = (a ++ (t, LDrop id) :: p) ++ (s_now s1, LEnd id RThrow) :: (t', LErr id h) :: q).
        { rewrite E, <- !app_assoc. reflexivity. }
        destruct (g_over _ _ _ _ B _ _ _ _ id E4 (SE _) eq_refl) as (h' & E5). discriminate. }
Qed.
Print Assumptions C72_disposed.
(** Task 3 belongs to handler 9, disposed by task 0 after it was posted. *)
Example C72_disposed_case : happened (fst s_ex) (LDrop 3) /\ ~ happened (fst s_ex) (LStart 3) /\ gone (fst s_ex) 9.
Proof.
  split; [|split].
  - apply hasb_ok. vm_compute. reflexivity.
  - apply hasb_no. vm_compute. reflexivity.
  - apply hasb_ok. vm_compute. reflexivity.
Qed.

(** ** One at a time, in the order of becoming ready *)
Theorem C72_one_at_a_time : forall kind beh onerr t0 tr s a t id b, s_exec kind beh onerr t0 tr s -> tr = a ++ (t, LStart id) :: b -> in_run a = [].
Proof. intros kind beh onerr t0 tr s a t id b X E. exact (proj1 (s_start _ _ _ _ _ _ X _ _ _ _ E)). Qed.
Print Assumptions C72_one_at_a_time.
Theorem C72_order : forall kind beh onerr t0 tr s a t id b, s_exec kind beh onerr t0 tr s -> tr = a ++ (t, LStart id) :: b -> exists l, readyq a = id :: l.
Proof. intros kind beh onerr t0 tr s a t id b X E. exact (proj2 (s_start _ _ _ _ _ _ X _ _ _ _ E)). Qed.
Print Assumptions C72_order.
(** In particular tasks submitted without delay are started in the order of the calls. *)
Theorem C72_fifo : forall kind beh onerr t0 tr s a1 t1 i h1 k1 a2 t2 j h2 k2 a3 t b, s_exec kind beh onerr t0 tr s ->
  tr = a1 ++ (t1, LCall VWorker i h1 k1 t1) :: a2 ++ (t2, LCall VWorker j h2 k2 t2) :: a3 ++ (t, LStart j) :: b ->
  (forall tp, ~ happened a2 (LAgain i tp)) -> (forall tp, ~ happened a3 (LAgain i tp)) ->
  happened a2 (LStart i) \/ happened a3 (LStart i) \/ happened a2 (LDrop i) \/ happened a3 (LDrop i).
Proof.
  intros kind beh onerr t0 tr s a1 t1 i h1 k1 a2 t2 j h2 k2 a3 t b X E N2 N3.
  destruct (exec_all _ _ _ _ _ _ X) as (_ & _ & B).
  assert (EJ : tr = (a1 ++ (t1, LCall VWorker i h1 k1 t1) :: a2) ++ (t2, LCall VWorker j h2 k2 t2) :: a3 ++ (t, LStart j) :: b) by (rewrite E, <- app_assoc; reflexivity).
  destruct (b_locate _ _ _ _ B _ _ _ EJ) as (s1 & s2 & B1 & ST & _). pose proof (b_idinv _ _ _ _ B1) as [_ _ EV _ _].
  assert (JN : j = b_next s1) by (inversion ST; subst; auto; match goal with M : _ \/ (exists _, _) |- _ => destruct M as [|[]]; discriminate end).
  assert (FR : forall t e, In (t, e) (a1 ++ (t1, LCall VWorker i h1 k1 t1) :: a2) -> id_of e <> Some j) by (intros t' e I Q; specialize (EV _ _ _ I Q); lia).
  assert (IJ : i <> j) by (intros ->; apply (FR t1 (LCall VWorker j h1 k1 t1)); [apply in_elt | reflexivity]).
  assert (NJ : ~ In j (readyq a1)).
  { intro J. destruct (readyq_ev _ _ J) as (t' & e & I & Q). apply (FR t' e); auto. apply in_or_app. auto. }
  assert (ES : tr = (a1 ++ (t1, LCall VWorker i h1 k1 t1) :: a2 ++ (t2, LCall VWorker j h2 k2 t2) :: a3) ++ (t, LStart j) :: b).
  { rewrite E, <- app_assoc. cbn. rewrite <- app_assoc. reflexivity. }
  destruct (proj2 (s_start _ _ _ _ _ _ X _ _ _ _ ES)) as (l & R).
  destruct (Decidable.dec_or _ _ (happened_dec a2 (LStart i)) (Decidable.dec_or _ _ (happened_dec a3 (LStart i)) (Decidable.dec_or _ _ (happened_dec a2 (LDrop i)) (happened_dec a3 (LDrop i))))) as [Y|N]; [exact Y|].
  exfalso.
  assert (KEEP : exists p q, readyq (a1 ++ (t1, LCall VWorker i h1 k1 t1) :: a2 ++ (t2, LCall VWorker j h2 k2 t2) :: a3) = p ++ i :: q /\ ~ In j p).
  { replace (a1 ++ (t1, LCall VWorker i h1 k1 t1) :: a2 ++ (t2, LCall VWorker j h2 k2 t2) :: a3)
      with ((a1 ++ [(t1, LCall VWorker i h1 k1 t1)]) ++ (a2 ++ (t2, LCall VWorker j h2 k2 t2) :: a3)) by (rewrite <- app_assoc; reflexivity).
    rewrite readyq_app. apply ready_keep.
    - intros t' e I. apply in_app_or in I. split; [|split].
      + intros tp ->. destruct I as [I | [I|I]]; [apply (N2 tp); now exists t' | discriminate | apply (N3 tp); now exists t'].
      + intros ->. apply N. destruct I as [I | [I|I]]; [left; now exists t' | discriminate | right; left; now exists t'].
      + intros ->. apply N. destruct I as [I | [I|I]]; [right; right; left; now exists t' | discriminate | right; right; right; now exists t'].
    - exists (readyq a1), []. split; auto. rewrite readyq_app. cbn. now rewrite Z.eqb_refl. }
  destruct KEEP as (p & q & K & NP). rewrite R in K. destruct p as [|x p]; cbn in K; injection K as K1 K2; [congruence|]. subst x. apply NP. now left.
Qed.
Print Assumptions C72_fifo.
(** 0 and 1 were posted in this order, 3 (dropped) after them; then timers. *)
Example C72_order_case : readyq (firstn 5 (fst s_ex)) = [0; 1; 3]%nat /\ map snd (starts_at (fst s_ex)) = [0; 1; 5; 4; 1; 5; 2; 6]%nat.
Proof. vm_compute. split; reflexivity. Qed.

(** ** Nobody is forgotten: when nothing can happen any more, however much time passes,
    every task has ended or was given up because its handler is disposed. *)
Theorem C72_all_run : forall kind beh onerr t0 tr s, s_exec kind beh onerr t0 tr s ->
  (forall d m, match m with MFire _ | MRun | MStep => True | _ => False end ->
     forall s1 ls, s_move kind beh onerr s (MTick d) = Some (s1, ls) -> s_move kind beh onerr s1 m = None) ->
  forall id, called tr id -> over tr id.
Proof.
  intros kind beh onerr t0 tr s X Q id C. destruct (exec_all _ _ _ _ _ _ X) as (_ & SH & B).
  assert (PC : s_pc s = []).
  { destruct (s_pc s) as [|it pc] eqn:PC; auto. specialize (Q 0%N MStep Logic.I _ _ eq_refl). cbn in Q. rewrite PC in Q.
    destruct it; [discriminate | destruct (s_ret _ _ _ _); discriminate | discriminate|]. destruct (s_local s); [discriminate|]. match type of Q with context [if ?c then _ else _] => destruct c end; discriminate. }
  assert (RE : s_ready s = []).
  { destruct (s_ready s) as [|e r] eqn:R; auto. specialize (Q 0%N MRun Logic.I _ _ eq_refl). cbn in Q. rewrite PC, R in Q.
    match type of Q with context [if ?c then _ else _] => destruct c end; [discriminate|]. destruct (beh _ _); discriminate. }
  assert (TI : s_timers s = []).
  { destruct (s_timers s) as [|e r] eqn:R; auto.
    destruct (min_timer (e :: r)) as (i & x & N & M); [discriminate|].
    specialize (Q (Z.to_N (t_tp (e_t x) - s_now s)) (MFire i) Logic.I _ _ eq_refl). cbn [s_move s_timers s_now] in Q. rewrite R, N in Q.
    replace (t_tp (e_t x) <=? s_now s + Z.of_N (Z.to_N (t_tp (e_t x) - s_now s))) with true in Q by (symmetry; apply Z.leb_le; lia).
    replace (forallb (fun y => t_tp (e_t x) <=? t_tp (e_t y)) (e :: r)) with true in Q; [discriminate|].
    symmetry. apply forallb_forall. intros y I. apply Z.leb_le. auto. }
  assert (LO : s_local s = []) by (unfold shape in SH; now rewrite PC in SH).
  assert (BT : btasks (babs s) = []) by (unfold btasks, babs, bag, running; cbn; now rewrite PC, RE, TI, LO).
  destruct (g_all _ _ _ _ B BT _ C) as [O | (h & t & I)]; auto.
  destruct (in_split _ _ I) as (p & q & E). destruct (s_locate _ _ _ _ _ _ X _ _ _ E) as (tr1 & s1 & m & ls & s2 & l1 & l2 & X1 & M & -> & EA & _).
  pose proof (move_ev _ _ _ _ _ _ _ _ _ X1 M _ _ _ eq_refl) as W. cbn in W. destruct W as (_ & -> & _).
  right. right. exists (s_now s1). rewrite E. apply in_or_app. left. rewrite EA. apply in_or_app. right. now left.
Qed.
Print Assumptions C72_all_run.
(** The example ends in such a state, seven tasks, one of them dropped. *)
Example C72_all_run_case : s_ready (snd s_ex) = [] /\ s_timers (snd s_ex) = [] /\ s_pc (snd s_ex) = [] /\ s_next (snd s_ex) = 7%nat.
Proof. vm_compute. repeat split; reflexivity. Qed.
(** No run that was not asked for: at most one per submission and per repetition asked for. *)
Theorem C72_runs_asked : forall kind beh onerr t0 tr s id, s_exec kind beh onerr t0 tr s -> (times (is_start id) tr <= times (is_req id) tr)%nat.
Proof.
  intros kind beh onerr t0 tr s id X. destruct (exec_all _ _ _ _ _ _ X) as (_ & _ & B). pose proof (b_times _ _ _ _ B id). lia.
Qed.
Print Assumptions C72_runs_asked.
Example C72_runs_asked_case : times (is_start 1) (fst s_ex) = 2%nat /\ times (is_req 1) (fst s_ex) = 2%nat /\ times (is_start 3) (fst s_ex) = 0%nat.
Proof. vm_compute. repeat split; reflexivity. Qed.

(** ** Tasks submitted with current_thread inside a task of the strand: errors are reported
    to their handler, exactly once, and the time asked for is kept to the tick. *)
Theorem C72_nested_errors : forall kind beh onerr t0 tr s, s_exec kind beh onerr t0 tr s ->
  (forall a t id b, tr = a ++ (t, LEnd id RThrow) :: b -> by_nested a id -> exists h k x b', b = (t, LErr id h) :: b' /\ asked a id = Some (h, k, x)) /\
  (forall a t id h b, tr = a ++ (t, LErr id h) :: b -> by_nested a id /\ (exists a', a = a' ++ [(t, LEnd id RThrow)]) /\
     forall h', ~ happened a (LErr id h') /\ ~ happened b (LErr id h')).
Proof.
  intros kind beh onerr t0 tr s X. destruct (exec_all _ _ _ _ _ _ X) as (_ & _ & B). split.
  - intros a t id b E NE. destruct (s_locate _ _ _ _ _ _ X _ _ _ E) as (tr1 & s1 & m & ls & s2 & l1 & l2 & X1 & M & -> & -> & X2 & l3 & ->).
    pose proof (move_ev _ _ _ _ _ _ _ _ _ X1 M _ _ _ eq_refl) as W. cbn in W. destruct W as (-> & -> & e & r & pc & PC & EI & [[N1 ->] | [N1 _]]).
    + destruct (exec_all _ _ _ _ _ _ X1) as (_ & _ & B1). exists (t_h (e_t e)), (t_k (e_t e)), (t_due (e_t e)). eexists. split; [reflexivity|]. rewrite app_nil_r, <- EI.
      apply (b_asked _ _ _ _ B1 (core (e_t e))). unfold btasks, babs, running. cbn [b_bag b_run]. apply in_or_app. right. rewrite PC. now left.
    + exfalso. rewrite app_nil_r in NE. exact (via_excl _ _ _ _ _ _ X1 _ N1 NE).
  - intros a t id h b E. destruct (s_locate _ _ _ _ _ _ X _ _ _ E) as (tr1 & s1 & m & ls & s2 & l1 & l2 & X1 & M & -> & -> & X2 & l3 & ->).
    pose proof (move_ev _ _ _ _ _ _ _ _ _ X1 M _ _ _ eq_refl) as W. cbn in W. destruct W as (-> & -> & NE & _).
    split; [now apply by_nested_app|]. split; [now exists tr1|].
    assert (ONE : forall a t h b, tr = a ++ (t, LErr id h) :: b -> exists a', a = a' ++ [(t, LEnd id RThrow)]).
    { clear - X. intros a t h b E. destruct (s_locate _ _ _ _ _ _ X _ _ _ E) as (tr1 & s1 & m & ls & s2 & l1 & l2 & X1 & M & -> & -> & X2 & l3 & ->).
      pose proof (move_ev _ _ _ _ _ _ _ _ _ X1 M _ _ _ eq_refl) as W. cbn in W. destruct W as (-> & -> & NE & _). eauto. }
    assert (TWICE : forall p q u t1 t2 h1 h2, tr = p ++ (t1, LErr id h1) :: q ++ (t2, LErr id h2) :: u -> False).
    { intros p q u t1 t2 h1 h2 E2. assert (E3 : tr = (p ++ (t1, LErr id h1) :: q) ++ (t2, LErr id h2) :: u) by (rewrite E2, <- app_assoc; reflexivity).
      destruct (ONE _ _ _ _ E3) as (a' & E4). destruct q as [|y q _] using rev_ind.
      - apply app_inj_tail in E4. destruct E4 as [_ E4]. discriminate.
      - change ((t1, LErr id h1) :: q ++ [y]) with (((t1, LErr id h1) :: q) ++ [y]) in E4. rewrite app_assoc in E4. apply app_inj_tail in E4. destruct E4 as [_ ->].
        assert (E5 : tr = (p ++ (t1, LErr id h1) :: q) ++ (t2, LEnd id RThrow) :: (t2, LErr id h2) :: u).
        { rewrite E2, <- !app_assoc. reflexivity. }
        destruct (g_over _ _ _ _ B _ _ _ _ id E5) as (h' & E6); [|reflexivity | discriminate].
        right. exists h1. exists t1. apply in_elt. }
    intro h'. split; intros (t' & I).
    + destruct (in_split _ _ I) as (p & q & E2). apply (TWICE p q (l2 ++ l3) t' (s_now s1) h' h). rewrite E, E2, <- app_assoc. reflexivity.
    + destruct (in_split _ _ I) as (p & q & E2). apply (TWICE (tr1 ++ [(s_now s1, LEnd id RThrow)]) p q (s_now s1) t' h h'). rewrite E, E2. reflexivity.
Qed.
Print Assumptions C72_nested_errors.
Example C72_nested_errors_case : happened (fst s_ex) (LEnd 4 RThrow) /\ happened (fst s_ex) (LErr 4 7).
Proof. split; apply hasb_ok; vm_compute; reflexivity. Qed.

(** Full statement: the exception of a task is reported to its handler. *)
Definition C72_error_claim : Prop := forall kind beh onerr t0 tr s id, s_exec kind beh onerr t0 tr s ->
  happened tr (LEnd id RThrow) -> exists h, happened tr (LErr id h).
Theorem C72_error_reported_refuted : ~ C72_error_claim.
Proof.
  intro C. destruct (C _ _ _ _ _ _ 2%nat s_ex_ok) as (h & t & H).
  - apply hasb_ok. vm_compute. reflexivity.
  - assert (N : forallb (fun e : ltev => match snd e with LErr 2 _ => false | _ => true end) (fst s_ex) = true) by (vm_compute; reflexivity).
    rewrite forallb_forall in N. specialize (N _ H). discriminate.
Qed.
Print Assumptions C72_error_reported_refuted.
(** No exception of a task submitted with the worker ever is. *)
Theorem C72_worker_errors_escape : forall kind beh onerr t0 tr s id h, s_exec kind beh onerr t0 tr s -> by_worker tr id -> ~ happened tr (LErr id h).
Proof.
  intros kind beh onerr t0 tr s id h X W (t & I). destruct (in_split _ _ I) as (p & q & E).
  destruct (proj2 (C72_nested_errors _ _ _ _ _ _ X) _ _ _ _ _ E) as (NE & _).
  apply (via_excl _ _ _ _ _ _ X id W). rewrite E. now apply by_nested_app.
Qed.
Print Assumptions C72_worker_errors_escape.

(** ** Periods *)
(** The timer of a nested task is set for exactly the time asked for; with C72_period that is
    first due time plus the sum of the intervals. *)
Theorem C72_nested_exact : forall kind beh onerr t0 tr s a t id tp b, s_exec kind beh onerr t0 tr s ->
  tr = a ++ (t, LAgain id tp) :: b -> by_nested a id -> exists h k, asked a id = Some (h, k, tp).
Proof.
  intros kind beh onerr t0 tr s a t id tp b X E NE.
  destruct (s_locate _ _ _ _ _ _ X _ _ _ E) as (tr1 & s1 & m & ls & s2 & l1 & l2 & X1 & M & -> & -> & X2 & l3 & ->).
  assert (X3 : s_exec kind beh onerr t0 (tr1 ++ l1 ++ (t, LAgain id tp) :: l2) s2) by exact X2.
  pose proof (move_ev _ _ _ _ _ _ _ _ _ X1 M _ _ _ eq_refl) as W. cbn in W.
  destruct W as [W | [W | (N1 & e & y & pc & PC & EI & D & ->)]].
  - exfalso. apply (via_excl _ _ _ _ _ _ X3 id); [now apply by_worker_app|]. rewrite app_assoc. now apply by_nested_app.
  - exfalso. apply (via_excl _ _ _ _ _ _ X3 id); [|rewrite app_assoc; now apply by_nested_app].
    destruct W as (h & k & x & t' & I). exists h, k, x, t'. apply in_or_app. right. apply in_or_app. auto.
  - destruct (exec_all _ _ _ _ _ _ X1) as (_ & _ & B1). exists (t_h (e_t e)), (t_k (e_t e)). rewrite app_nil_r, <- EI, <- D.
    apply (b_asked _ _ _ _ B1 (core (e_t e))). unfold btasks, babs, bag. cbn [b_bag b_run]. apply in_or_app. left. apply in_map. rewrite PC. cbn.
    rewrite !in_app_iff. right. right. right. now left.
Qed.
Print Assumptions C72_nested_exact.
Theorem C72_period : forall kind beh onerr t0 tr s id h x, s_exec kind beh onerr t0 tr s -> asked tr id = Some (h, KThis, x) ->
  exists f, lfirst tr id = Some f /\ x = f + zsum (intervals tr id).
Proof. intros kind beh onerr t0 tr s id h x X A. destruct (exec_all _ _ _ _ _ _ X) as (_ & _ & B). eapply b_period; eauto. Qed.
Print Assumptions C72_period.
(** Task 5: started at 3 and again for 3 + 20, not for 13 + 20 (it ran late). *)
Example C72_nested_exact_case : lfirst (fst s_ex) 5 = Some 3 /\ intervals (fst s_ex) 5 = [20] /\ happened (fst s_ex) (LAgain 5 23).
Proof. split; [vm_compute; reflexivity|]. split; [vm_compute; reflexivity|]. apply hasb_ok. vm_compute. reflexivity. Qed.

(** The timer of a task of the worker: at the time asked for, if that was a time point (or the
    call); after the delay asked for, counted from the moment the timer is set, if it was a
    delay - delay_from_this_timepoint included, once the task is repeated. *)
Theorem C72_timer : forall kind beh onerr t0 tr s a t id tp b, s_exec kind beh onerr t0 tr s -> tr = a ++ (t, LAgain id tp) :: b -> by_worker a id ->
  exists h k x r, asked a id = Some (h, k, x) /\ requested a id = Some r /\
    (k = KTo \/ intervals a id = [] -> tp = x) /\ (k = KNow -> tp = t + (x - r)) /\
    (k = KThis -> intervals a id <> [] -> exists l v, intervals a id = l ++ [v] /\ tp = t + v).
Proof.
  intros kind beh onerr t0 tr s a t id tp b X E BW.
  destruct (s_locate _ _ _ _ _ _ X _ _ _ E) as (tr1 & s1 & m & ls & s2 & l1 & l2 & X1 & M & EL & -> & X2 & l3 & ->).
  destruct (again_ev _ _ _ _ _ _ _ M _ _ _ _ _ EL) as (-> & [(-> & e & y & pc & PC & EI & ET) | (h & k & EI & ->)]).
  - rewrite app_nil_r in *. destruct (exec_all _ _ _ _ _ _ X1) as (_ & _ & B1).
    assert (A : asked tr1 id = Some (t_h (e_t e), t_k (e_t e), t_due (e_t e))).
    { rewrite <- EI. apply (b_asked _ _ _ _ B1 (core (e_t e))). unfold btasks, babs, bag. cbn [b_bag b_run]. apply in_or_app. left. apply in_map. rewrite PC. cbn.
      rewrite !in_app_iff. right. right. right. now left. }
    destruct (asked_requested _ _ _ A) as (r & RQ). do 4 eexists. split; [exact A|]. split; [exact RQ|].
    assert (C : e_cur e = false).
    { pose proof (via_inv _ _ _ _ _ _ X1) as (_ & _ & _ & V). rewrite PC in V. apply Forall_inv in V. cbn in V. unfold via_ok in V. destruct (e_cur e); auto.
      exfalso. rewrite EI in V. exact (via_excl _ _ _ _ _ _ X1 _ BW V). }
    pose proof (timer_inv_exec _ _ _ _ _ _ X1) as T. rewrite PC in T. apply Forall_inv in T. cbn in T. destruct (T C) as (NI & T'). rewrite EI in NI, T'. specialize (T' _ RQ). clear T.
    destruct y as [d|y].
    + destruct T' as (K1 & K2 & K3). split; [intros [K|K]; contradiction|]. split; [intro K; rewrite (K2 K); lia|]. intros K _. destruct (K3 K) as (l & EQ). exists l, d. auto.
    + destruct T' as (K & ->). split; [auto|]. split; intro; congruence.
  - assert (N0 : intervals (tr1 ++ [(s_now s1, LCall VWorker id h k tp)]) id = []).
    { unfold intervals. rewrite flat_map_app. cbn. rewrite app_nil_r. destruct (ids_inv _ _ _ _ _ _ X1) as (_ & _ & EV). subst id. clear - EV.
      induction tr1 as [|[t e] tr IH]; auto. cbn [flat_map snd]. rewrite IH by (intros; eapply EV; [right; eauto | eauto]).
      destruct e; auto. destruct r; auto. destruct (Nat.eqb_spec id (s_next s1)); auto. specialize (EV _ _ id (or_introl eq_refl) eq_refl). lia. }
    exists h, k, tp, (s_now s1). split; [unfold asked; rewrite fold_left_app; cbn; now rewrite Nat.eqb_refl|].
    split; [unfold requested; rewrite fold_left_app; cbn; now rewrite Nat.eqb_refl|]. split; [auto|]. split; [intros _; lia|]. congruence.
Qed.
Print Assumptions C72_timer.
(** Task 1 asked at 3 for a repetition in 10. *)
Example C72_timer_case : happened (fst s_ex) (LEnd 1 (RAgain 10)) /\ happened (fst s_ex) (LAgain 1 13) /\ happened (fst s_ex) (LAgain 2 30).
Proof. repeat split; apply hasb_ok; vm_compute; reflexivity. Qed.

(** Full statement: also the timer of a task submitted with the worker. *)
Definition C72_exact_claim : Prop := forall kind beh onerr t0 tr s a t id tp b h x, s_exec kind beh onerr t0 tr s ->
  tr = a ++ (t, LAgain id tp) :: b -> asked a id = Some (h, KThis, x) -> tp = x.
(** A task with period 10 that takes one tick: started at once whenever it is ready, it is
    late by one tick more each time. *)
Definition dk (code : nat) : skind := KThis.
Definition db (code run : nat) : list sact * sres := ([], RAgain 10).
Definition d_round := [MTick 10; MFire 0; MRun; MTick 1; MStep; MStep; MStep].
Definition d_state (n : nat) (now : Z) : sstate :=
  SState now [] [Entry (Task 0 0 KThis 0 (S n) (10 * Z.of_nat (S n)) (now + 10)) false] [] [] [] 1.
Theorem C72_drift_refuted : forall n : nat, exists tr s, s_exec dk db (fun _ => []) 0 tr s /\ times (is_start 0) tr = S n /\
  asked tr 0 = Some (0%nat, KThis, 10 * Z.of_nat (S n)) /\ exists a t, tr = a ++ [(t, LAgain 0 (10 * Z.of_nat (S n) + Z.of_nat (S n)))].
Proof.
  assert (G : forall n : nat, exists tr, s_exec dk db (fun _ => []) 0 tr (d_state n (11 * Z.of_nat n + 1)) /\ times (is_start 0) tr = S n /\
    asked tr 0 = Some (0%nat, KThis, 10 * Z.of_nat (S n)) /\ exists a t, tr = a ++ [(t, LAgain 0 (11 * Z.of_nat n + 1 + 10))]).
  { induction n as [|n (tr & X & T & A & _)].
    - eexists. split; [|split; [|split]].
      + pose proof (s_run_exec dk db (fun _ => []) 0 [MUser (AFor 0 0 0); MRun; MTick 1; MStep; MStep; MStep] [] (s_init 0) (s_exec_0 _ _ _ _)) as R.
        apply R. vm_compute. reflexivity.
      + reflexivity.
      + reflexivity.
      + eexists [_; _; _], _. reflexivity.
    - set (now := 11 * Z.of_nat n + 1) in *.
      assert (R : s_run dk db (fun _ => []) (d_state n now) d_round =
        ([(now + 10, LPick 0); (now + 10, LStart 0); (now + 10 + 1, LEnd 0 (RAgain 10)); (now + 10 + 1, LAgain 0 (now + 10 + 1 + 10))],
         d_state (S n) (11 * Z.of_nat (S n) + 1))).
      { assert (E1 : 11 * Z.of_nat (S n) + 1 = now + 10 + 1) by (unfold now; lia). rewrite E1. clearbody now. unfold d_round, d_state.
        cbn [s_run s_move s_now s_timers nth_error e_t t_tp t_id Z.of_N forallb]. rewrite !Z.leb_refl.
        cbn -[Z.add Z.mul Z.of_nat]. unfold ran, next_due, at_tp. cbn -[Z.add Z.mul Z.of_nat].
        replace (10 * Z.of_nat (S n) + 10) with (10 * Z.of_nat (S (S n))) by lia. reflexivity. }
      exists (tr ++ [(now + 10, LPick 0); (now + 10, LStart 0); (now + 10 + 1, LEnd 0 (RAgain 10)); (now + 10 + 1, LAgain 0 (now + 10 + 1 + 10))]).
      split; [eapply s_run_exec; [exact X | exact R]|]. split; [|split].
      + unfold times in *. rewrite filter_app, app_length. cbn [filter snd is_start Nat.eqb length]. unfold ltev in *. lia.
      + unfold asked in *. rewrite fold_left_app, A. cbn [fold_left asked1 snd fst Nat.eqb]. do 2 f_equal. lia.
      + exists (tr ++ [(now + 10, LPick 0); (now + 10, LStart 0); (now + 10 + 1, LEnd 0 (RAgain 10))]), (now + 10 + 1). rewrite <- app_assoc. cbn [app].
        replace (now + 10 + 1 + 10) with (11 * Z.of_nat (S n) + 1 + 10) by (unfold now; lia). reflexivity. }
  intro n. destruct (G n) as (tr & X & T & A & a & t & E). exists tr, (d_state n (11 * Z.of_nat n + 1)). repeat split; auto.
  exists a, t. rewrite E. replace (10 * Z.of_nat (S n) + Z.of_nat (S n)) with (11 * Z.of_nat n + 1 + 10) by lia. reflexivity.
Qed.
Print Assumptions C72_drift_refuted.
Theorem C72_exact_refuted : ~ C72_exact_claim.
Proof.
  intro C. destruct (C72_drift_refuted 0) as (tr & s & X & _ & A & a & t & E). subst tr.
  assert (A' : asked a 0 = Some (0%nat, KThis, 10)) by (unfold asked in A; rewrite fold_left_app in A; exact A).
  specialize (C _ _ _ _ _ _ _ _ _ _ _ _ _ X eq_refl A'). cbn in C. lia.
Qed.
Print Assumptions C72_exact_refuted.
