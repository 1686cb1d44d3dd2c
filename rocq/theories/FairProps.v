(** Theorems C81: from/just sources subscribed together take turns. *)
From Verif Require Import Base Machine MachineProofs Concur ObserverModel ChainModel MultiSpec MultiModel MultiSeq MultiProps.
From Verif Require Import SchedSpec SchedModel SchedProps FairSpec FairModel FairProofs FairHist FairEnd.
Open Scope nat_scope.

Definition now_kind : nat -> skind := fun _ => KNow.

(** At every moment, whatever the clock does and whoever is unsubscribed: no source is
    ahead of one that still has something to say by more than one value, and only of a
    later subscribed one. *)
Theorem C81_fair : forall lens onerr t0 tr s stk,
  sexec now_kind (from_beh lens) onerr (s_init t0 (subscribe_all lens)) tr (s, stk) ->
  forall i j, j < length lens -> ~ disposed_before tr j -> runs tr j < needs (nth j lens 0) ->
  runs tr i <= runs tr j + (if i <? j then 1 else 0).
Proof.
  intros lens onerr t0 tr s stk X i j LJ ND LT. destruct (finv_exec lens onerr t0 tr _ X) as (ring & P & _ & _). cbn [fst snd] in P.
  assert (Z : (forall a, runs tr a = 0) \/ exists ring, ringok lens (length lens) tr ring).
  { destruct P; eauto. left. intro a. pose proof (r_max _ _ _ _ H1 a) as M. cbn in M. lia. }
  destruct Z as [Z|(ring' & RO)]; [rewrite !Z; lia|].
  destruct (in_dec Nat.eq_dec j (map fst ring')) as [I|N].
  - apply in_map_iff in I. destruct I as ((a, r) & E & I). cbn in E. subst a. pose proof (r_fair _ _ _ _ RO i _ I) as F. pose proof (r_runs _ _ _ _ RO) as G.
    rewrite Forall_forall in G. destruct (G _ I) as (G1 & _). cbn [fst snd] in F, G1. now rewrite <- G1.
  - destruct (r_rest _ _ _ _ RO j LJ N) as [D|D]; [contradiction|lia].
Qed.
Print Assumptions C81_fair.

(** No source is asked more often than it needs; when subscribe has returned, everyone who
    was not unsubscribed has said everything. *)
Theorem C81_complete : forall lens onerr t0 tr s stk,
  sexec now_kind (from_beh lens) onerr (s_init t0 (subscribe_all lens)) tr (s, stk) ->
  (forall i, runs tr i <= (if i <? length lens then needs (nth i lens 0) else 0)) /\
  (stk = [] -> s_queue s = None /\ forall j, j < length lens -> ~ disposed_before tr j -> runs tr j = needs (nth j lens 0)).
Proof.
  intros lens onerr t0 tr s stk X. destruct (finv_exec lens onerr t0 tr _ X) as (ring & P & _ & _). cbn [fst snd] in P. split.
  - assert (Z : exists m r, m <= length lens /\ ringok lens m tr r) by (destruct P; eauto with arith). destruct Z as (m & r & LM & RO).
    intro i. pose proof (r_max _ _ _ _ RO i) as M. destruct (Nat.ltb_spec i m), (Nat.ltb_spec i (length lens)); lia.
  - intros ->. inversion P; subst; [match goal with H : _ ++ [_] = [] |- _ => destruct (app_cons_not_nil _ _ _ (eq_sym H)) end|].
    split; auto. intros j LJ ND. destruct (r_rest _ _ _ _ H0 j LJ ltac:(intros [])); tauto.
Qed.
Print Assumptions C81_complete.

(** The thread comes back from subscribe after a bounded number of steps. *)
Theorem C81_returns : forall lens onerr t0 n tr s stk,
  counted now_kind (from_beh lens) onerr (s_init t0 (subscribe_all lens)) n tr (s, stk) ->
  n <= 3 + list_sum (map (fun m => 1 + 5 * needs m) lens) /\
  (stk <> [] -> exists ls c', sstep now_kind (from_beh lens) onerr (s, stk) ls c' /\
     counted now_kind (from_beh lens) onerr (s_init t0 (subscribe_all lens)) (S n) (tr ++ ls) c').
Proof.
  intros lens onerr t0 n tr s stk H. split; [eapply ends; exact H|]. intro N. destruct stk as [|it rest]; [contradiction|].
  destruct (tstep now_kind (from_beh lens) onerr s it) as ((s', its), ls) eqn:E.
  eexists _, (s', its ++ rest). split; [constructor; exact E|]. eapply CtRun; eauto.
Qed.
Print Assumptions C81_returns.

(** Nobody unsubscribed: the order of the runs is round by round. *)
Theorem C81_rounds : forall lens onerr t0 tr s stk, (forall i, ~ disposed_before tr i) ->
  sexec now_kind (from_beh lens) onerr (s_init t0 (subscribe_all lens)) tr (s, stk) ->
  (exists rest, rounds lens = starts tr ++ rest) /\ (stk = [] -> starts tr = rounds lens).
Proof. intros lens onerr t0 tr s stk Q X. exact (starts_prefix lens onerr t0 tr s stk Q X). Qed.
Print Assumptions C81_rounds.

(** merge_with: the values of all sources in turn, then completion. *)
Theorem C81_merge_with : forall V (ls : list (list V)) (D : machine V) d0 onerr t0 tr s, lawful D -> mdisp D d0 = false ->
  (forall i, ~ disposed_before tr i) ->
  sexec now_kind (from_beh (map (@length V) ls)) onerr (s_init t0 (subscribe_all (map (@length V) ls))) tr (s, []) ->
  exists g, seq_run (merge_op V) D (fun _ => []) (g_init _ D d0) (merge_calls ls tr) = Some g /\
    g_lock g = false /\ g_down g = mrun D d0 (map Next (interleaved ls) ++ [Done]).
Proof. intros. apply merge_with_run; auto. eapply starts_prefix; eauto. Qed.
Print Assumptions C81_merge_with.

(** zip: the rows, then completion (when all sources have completed). *)
Theorem C81_zip : forall V B (g : list (option V) -> B) main others (D : machine B) d0 onerr t0 tr s, lawful D ->
  (forall i, ~ disposed_before tr i) ->
  (let lens := map (@length V) (others ++ [main]) in
   sexec now_kind (from_beh lens) onerr (s_init t0 (subscribe_all lens)) tr (s, [])) ->
  let op := zip_op (S (length others)) (fun l => Ok (g l)) in
  exists st, seq_run op D (fun _ => []) (g_init op D d0) (lifted_calls main others tr) = Some st /\
    g_lock st = false /\ g_down st = mrun D d0 (map Next (map (fun r => g (map Some r)) (zipped_rows (main :: others))) ++ [Done]).
Proof.
  intros V B g main others D d0 onerr t0 tr s L Q X op. cbn zeta in X.
  pose proof (proj2 (starts_prefix _ _ _ _ _ _ Q X) eq_refl) as ALL.
  destruct (C35_zip_sequential V B (S (length others)) (fun l => Ok (g l)) D d0 (lifted_calls main others tr) L (calls_fit main others tr ALL)) as (st & E1 & E2 & E3).
  exists st. split; auto. split; auto. refine (eq_trans E3 _). f_equal. now rewrite (zip_outs main others tr ALL B (fun l => g (map Some l))).
Qed.
Print Assumptions C81_zip.

(** with_latest_from: the r-th value of the main source meets the r-th values of the
    others, or their last ones when they are shorter. *)
Theorem C81_with_latest_from : forall V B (f : V -> list V -> res B) main others (D : machine B) d0 onerr t0 tr s, lawful D ->
  (forall i, ~ disposed_before tr i) ->
  (let lens := map (@length V) (others ++ [main]) in
   sexec now_kind (from_beh lens) onerr (s_init t0 (subscribe_all lens)) tr (s, [])) ->
  let op := with_latest_op (length others) f in
  exists st, seq_run op D (fun _ => []) (g_init op D d0) (lifted_calls main others tr) = Some st /\
    g_lock st = false /\ g_down st = mrun D d0 (sampled f main others ++ [Done]).
Proof.
  intros V B f main others D d0 onerr t0 tr s L Q X op. cbn zeta in X.
  pose proof (proj2 (starts_prefix _ _ _ _ _ _ Q X) eq_refl) as ALL.
  destruct (C37_with_latest_from_sequential V B (length others) f D d0 (lifted_calls main others tr) L) as (st & E1 & E2 & E3).
  - eapply Forall_impl; [|exact (calls_fit main others tr ALL)]. cbn. intros. lia.
  - exists st. split; auto. split; auto. refine (eq_trans E3 _). f_equal. now rewrite (with_latest_outs main others tr ALL B f).
Qed.
Print Assumptions C81_with_latest_from.

(** Three sources: 1 2 3, nothing, 10 20. *)
Definition fair_ls : list (list nat) := [[1; 2; 3]; []; [10; 20]].
Definition fair_run := srun now_kind (from_beh (map (@length nat) fair_ls)) (fun _ => []) (repeat CRun 30 ++ [CTick 7%Z] ++ repeat CRun 30) (s_init 5%Z (subscribe_all (map (@length nat) fair_ls))).
Example C81_case : sexec now_kind (from_beh (map (@length nat) fair_ls)) (fun _ => []) (s_init 5%Z (subscribe_all (map (@length nat) fair_ls))) (fst fair_run) (snd fair_run) /\
  snd (snd fair_run) = [] /\ starts (fst fair_run) = [0; 1; 2; 0; 2; 0] /\ interleaved fair_ls = [1; 10; 2; 20; 3] /\
  merge_calls fair_ls (fst fair_run) = [(0, Next (inl tt)); (0, Next (inl tt)); (0, Next (inl tt)); (0, Done); (1, Next (inr 1)); (2, Done); (3, Next (inr 10)); (1, Next (inr 2)); (3, Next (inr 20)); (3, Done); (1, Next (inr 3)); (1, Done)] /\
  zipped_rows [[1; 2; 3]; [10; 20]] = [[1; 10]; [2; 20]] /\
  sampled (fun v l => Ok (v + list_sum l)) [1; 2; 3] [[10; 20]; [100]] = [Next 111; Next 122; Next 123].
Proof. split; [eapply srun_sound; exact (surjective_pairing fair_run)|]. vm_compute. repeat split; reflexivity. Qed.
