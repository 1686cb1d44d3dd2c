(** Final statements for the subjects (C48-C52). *)
From Verif Require Import Base Machine MachineProofs Concur ObserverModel ChainModel ChainProofs.
From Verif Require Import MultiSpec MultiLin MultiRace MultiProps CallLin SubjSpec SubjModel SubjProofs SubjConcModel SubjConcProofs.

(** ** C48 *)

(** Every history of subscriptions (of distinct observers), unsubscriptions, events and
    disposal: each observer ends as if it alone had got exactly its part of the history;
    [mkill] is what unsubscription itself does to an observer. *)
Theorem C48_publish : forall V (D : machine V), lawful D -> forall h d0, NoDup (subs h) ->
  exists g, sop_run D (fun _ _ => []) (subj_init D d0) h = Some g /\
    forall i, s_sub D g i = if unsubbed i h then mkill D (mrun D d0 (received i h)) else mrun D d0 (received i h).
Proof. intros V D L h d0 N. exact (publish_run D L h d0 N). Qed.
Print Assumptions C48_publish.

Definition pub_hist : list (sop nat) :=
  [OEmit (Next 1); OSub 0; OEmit (Next 2); OSub 1; OEmit (Next 3); OUnsub 0; OEmit (Next 4); OEmit Done; OEmit (Next 5); OSub 2].
Example C48_case : received 0 pub_hist = [Next 2; Next 3] /\ received 1 pub_hist = [Next 3; Next 4; Done] /\ received 2 pub_hist = [Done] /\
  NoDup (subs pub_hist) /\
  exists g, sop_run plain (fun _ _ => []) (subj_init plain o_init) pub_hist = Some g /\ o_log (s_sub plain g 1) = [Next 3; Next 4; Done] /\ o_log (s_sub plain g 0) = [Next 2; Next 3].
Proof.
  repeat split; try reflexivity.
  - repeat constructor; cbn; intuition congruence.
  - eexists. split; [vm_compute; reflexivity|]. split; reflexivity.
Qed.

(** ** C49 *)

(** Callbacks may unsubscribe any observers and dispose the subject: no execution meets
    undefined behaviour; in one emission a live observer that no callback unsubscribes
    gets the value exactly once, everybody at most once, others nothing.
    Missing for the full claim: callbacks that subscribe, for which it is false (below). *)
Theorem C49_unsubscribe_partial : forall V (D : machine V), lawful D -> forall react : nat -> V -> list act,
  (forall i v, Forall (fun a => match a with ASub _ => False | _ => True end) (react i v)) ->
  forall h d0, NoDup (subs h) ->
  exists g, sop_run D react (subj_init D d0) h = Some g /\
    forall v, exists g', sop_run D react g [OEmit (Next v)] = Some g' /\
      forall j, let d := s_sub D g j in let d' := s_sub D g' j in
        (d' = d \/ d' = mstep D d (Next v) \/ d' = mkill D d \/ d' = mkill D (mstep D d (Next v))) /\
        (~ (exists i, In (AUnsub j) (react i v)) -> mdisp D d = false -> s_flag D g = false -> In j (subs h) -> d' = mstep D d (Next v)) /\
        (~ In j (subs h) -> ~ (exists i, In (AUnsub j) (react i v)) -> d' = d).
Proof. intros V D L react Q h d0 N. exact (quiet_run D L react Q h d0 N). Qed.
Print Assumptions C49_unsubscribe_partial.
Definition unsub_react : nat -> nat -> list act := fun i v => if (i =? 0) && (v =? 2) then [AUnsub 0; AUnsub 2] else [].
Example C49_case : exists g, sop_run plain unsub_react (subj_init plain o_init) [OSub 0; OSub 1; OSub 2; OEmit (Next 1); OEmit (Next 2); OEmit (Next 3)] = Some g /\
  map (fun i => o_log (s_sub plain g i)) [0; 1; 2] = [[Next 1; Next 2]; [Next 1; Next 2; Next 3]; [Next 1]].
Proof. eexists. split; [vm_compute; reflexivity | reflexivity]. Qed.

(** Whenever the first observer in the list is live, remains so and subscribes others from
    its callback, on_next goes on with invalidated iterators of the deque. *)
Theorem C49_subscribe_refuted : forall V (D : machine V) g p i r v j acts (react : nat -> V -> list act),
  s_st D g = SObs (Some p) -> p < length (s_heap D g) -> deque D g p = i :: r ->
  mdisp D (s_sub D g i) = false -> mdisp D (mstep D (s_sub D g i) (Next v)) = false ->
  react i v = ASub j :: acts -> Forall (fun a => match a with ASub _ => True | _ => False end) acts ->
  on_next D react g v = None.
Proof. intros V D g p i r v j acts react A B C E F G H. exact (subscribe_breaks D g p i r v j acts A B C E F react G H). Qed.
Print Assumptions C49_subscribe_refuted.
(** One observer that subscribes another one. *)
Example C49_subscribe_case : sop_run plain (fun i v => if i =? 0 then [ASub 1] else []) (subj_init (@plain nat) o_init) [OSub 0; OEmit (Next 1)] = None.
Proof. reflexivity. Qed.

(** The same with a subscription from another thread: undefined behaviour is reached. *)
Theorem C49_concurrent_subscribe_refuted : exists (first : list nat -> list nat) tr c,
  gexec (rstep first) (r_init [], r_threads [1; 2] 3) tr c /\ gfinished c /\ r_ub (fst c) = true.
Proof.
  exists (fun _ => []). set (ex := gtol (rstep (fun _ : list nat => [])) (reps [(1, 3); (2, 3); (0, 3); (3, 3); (0, 20)]) (r_init [], r_threads [1; 2] 3)).
  exists (fst ex), (snd ex). split; [apply gtol_sound|]. split; [apply finished_all; vm_compute; reflexivity | vm_compute; reflexivity].
Qed.
Print Assumptions C49_concurrent_subscribe_refuted.

(** ** C50 *)

Theorem C50_behavior : forall V (D : machine V), lawful D -> forall h v0 d0, NoDup (subs h) ->
  exists b, bop_run D (subj_init D d0, v0) h = Some b /\
    forall i, s_sub D (fst b) i = if unsubbed i h then mkill D (mrun D d0 (received_latest v0 i h)) else mrun D d0 (received_latest v0 i h).
Proof. intros V D L h v0 d0 N. exact (behavior_run D L h v0 d0 N). Qed.
Print Assumptions C50_behavior.
Example C50_case : received_latest 9 0 pub_hist = [Next 1; Next 2; Next 3] /\ received_latest 9 1 pub_hist = [Next 2; Next 3; Next 4; Done] /\
  received_latest 9 2 pub_hist = [Done] /\ received_latest 9 0 (OSub 0 :: []) = [Next 9] /\
  exists b, bop_run plain (subj_init plain o_init, 9) pub_hist = Some b /\ o_log (s_sub plain (fst b) 1) = [Next 2; Next 3; Next 4; Done].
Proof. repeat split; try reflexivity. eexists. split; [vm_compute; reflexivity | reflexivity]. Qed.

Definition latest {V} (l : list V) : list V := match rev l with [] => [] | v :: _ => [v] end.
(** One emitting thread, any number of threads that subscribe, every interleaving: a
    subscriber has got one value that was the latest at some moment (k emitted values had
    been stored) and then a suffix of the emitted values, in order; at most one value twice.
    Missing for the full claim: k = m, which is false (below). *)
Theorem C50_concurrent_partial : forall V (v0 : V) vs n tr c,
  gexec (rstep latest) (r_init [v0], r_threads vs n) tr c -> gfinished c ->
  forall i, i < n -> exists k m, k <= S m /\ m <= length vs /\ r_recv (fst c) i = latest ([v0] ++ firstn k vs) ++ skipn m vs.
Proof. intros V v0 vs n tr c. exact (race_order latest [v0] vs n tr c). Qed.
Print Assumptions C50_concurrent_partial.

Definition race_ex first sched := gtol (rstep (V := nat) first) sched (r_init [0], r_threads [1; 2] 1).
Example C50_concurrent_case : let ex := race_ex latest (reps [(0, 2); (1, 3); (0, 20)]) in
  gexec (rstep latest) (r_init [0], r_threads [1; 2] 1) (fst ex) (snd ex) /\ snd (snd ex) = [[]; []] /\ r_recv (fst (snd ex)) 0 = [1; 2].
Proof. split; [apply gtol_sound|]. vm_compute. split; reflexivity. Qed.

(** The subscriber reads 0, then 1 is stored and sent, then it gets into the list: 1 is lost.
    Or: 1 is stored, the subscriber reads it and gets into the list, then 1 is sent: twice. *)
Theorem C50_gap_refuted : exists tr c, gexec (rstep latest) (r_init [0], r_threads [1; 2] 1) tr c /\ gfinished c /\ r_recv (fst c) 0 = [0; 2].
Proof.
  set (ex := race_ex latest (reps [(1, 1); (0, 2); (1, 2); (0, 20)])). exists (fst ex), (snd ex). split; [apply gtol_sound|].
  split; [apply finished_all|]; vm_compute; reflexivity.
Qed.
Print Assumptions C50_gap_refuted.
Theorem C50_duplicate_refuted : exists tr c, gexec (rstep latest) (r_init [0], r_threads [1; 2] 1) tr c /\ gfinished c /\ r_recv (fst c) 0 = [1; 1; 2].
Proof.
  set (ex := race_ex latest (reps [(0, 1); (1, 3); (0, 20)])). exists (fst ex), (snd ex). split; [apply gtol_sound|].
  split; [apply finished_all|]; vm_compute; reflexivity.
Qed.
Print Assumptions C50_duplicate_refuted.

(** ** C51 *)

Theorem C51_replay : forall V (D : machine V), lawful D -> forall limit age, limit <> Some 0 -> forall h d0,
  NoDup (subs (map snd h)) -> in_time 0 (map fst h) ->
  exists b, rop_run D limit age (subj_init D d0, []) h = Some b /\
    forall i, s_sub D (fst b) i = if unsubbed i (map snd h) then mkill D (mrun D d0 (replayed limit age i h)) else mrun D d0 (replayed limit age i h).
Proof. intros V D L limit age LP h d0 N T. exact (replay_run D L limit age LP h d0 N T). Qed.
Print Assumptions C51_replay.
Definition rep_hist : list (nat * sop nat) :=
  [(1, OEmit (Next 1)); (2, OEmit (Next 2)); (3, OEmit (Next 3)); (4, OSub 0); (5, OEmit (Next 4)); (8, OSub 1); (9, OEmit Done); (9, OSub 2)].
Example C51_case : replayed (Some 3) (Some 4) 0 rep_hist = [Next 1; Next 2; Next 3; Next 4; Done] /\
  replayed (Some 2) (Some 4) 0 rep_hist = [Next 2; Next 3; Next 4; Done] /\
  replayed (Some 3) (Some 4) 1 rep_hist = [Next 4; Done] /\ replayed (Some 3) (Some 4) 2 rep_hist = [Next 4; Done] /\
  NoDup (subs (map snd rep_hist)) /\ in_time 0 (map fst rep_hist) /\
  exists b, rop_run plain (Some 3) (Some 4) (subj_init plain o_init, []) rep_hist = Some b /\ o_log (s_sub plain (fst b) 0) = [Next 1; Next 2; Next 3; Next 4; Done].
Proof.
  repeat split; try reflexivity; try (cbn; lia).
  - repeat constructor; cbn; intuition congruence.
  - eexists. split; [vm_compute; reflexivity | reflexivity].
Qed.

(** Concurrent subscription, unlimited replay: as for behavior_subject. *)
Theorem C51_concurrent_partial : forall V (vs : list V) n tr c,
  gexec (rstep (fun l => l)) (r_init [], r_threads vs n) tr c -> gfinished c ->
  forall i, i < n -> exists k m, k <= S m /\ m <= length vs /\ r_recv (fst c) i = firstn k vs ++ skipn m vs.
Proof. intros V vs n tr c. exact (race_order (fun l => l) [] vs n tr c). Qed.
Print Assumptions C51_concurrent_partial.
Definition rep_ex sched := gtol (rstep (V := nat) (fun l => l)) sched (r_init [], r_threads [1; 2; 3] 1).
Example C51_concurrent_case : let ex := rep_ex (reps [(0, 2); (1, 3); (0, 20)]) in
  gexec (rstep (fun l => l)) (r_init [], r_threads [1; 2; 3] 1) (fst ex) (snd ex) /\ snd (snd ex) = [[]; []] /\ r_recv (fst (snd ex)) 0 = [1; 2; 3].
Proof. split; [apply gtol_sound|]. vm_compute. split; reflexivity. Qed.
Theorem C51_gap_refuted : exists tr c, gexec (rstep (fun l => l)) (r_init [], r_threads [1; 2; 3] 1) tr c /\ gfinished c /\ r_recv (fst c) 0 = [1; 3].
Proof.
  set (ex := rep_ex (reps [(0, 2); (1, 1); (0, 2); (1, 2); (0, 20)])). exists (fst ex), (snd ex). split; [apply gtol_sound|].
  split; [apply finished_all|]; vm_compute; reflexivity.
Qed.
Print Assumptions C51_gap_refuted.
Theorem C51_duplicate_refuted : exists tr c, gexec (rstep (fun l => l)) (r_init [], r_threads [1; 2; 3] 1) tr c /\ gfinished c /\ r_recv (fst c) 0 = [1; 2; 2; 3].
Proof.
  set (ex := rep_ex (reps [(0, 3); (1, 3); (0, 20)])). exists (fst ex), (snd ex). split; [apply gtol_sound|].
  split; [apply finished_all|]; vm_compute; reflexivity.
Qed.
Print Assumptions C51_duplicate_refuted.

(** ** C52 *)

(** Any number of threads emitting into a serialized subject with n observers: at most one
    thread is inside the observers' callbacks; there is one order of all calls, containing
    each call between its beginning and its end, such that every observer has received
    exactly the events of that order up to the first terminal one; nobody waits for ever. *)
Theorem C52_serialized : forall V (D : machine V), lawful D -> forall n d0 progs tr c,
  gexec (cistep Z0 (zstep D true)) (z_init D n d0, cthreads progs) tr c ->
  count in_call (concat (snd c)) <= 1 /\
  (gfinished c \/ exists ls c', gstep (cistep Z0 (zstep D true)) c ls c') /\
  exists h, linearized progs tr h /\
    (count in_call (concat (snd c)) = 0 -> forall j, j < n -> z_sub D (fst c) j = mrun D d0 (map snd h)).
Proof.
  intros V D L n d0 progs tr c X. split; [exact (serialized_exclusive D n d0 progs tr c X)|]. split; [exact (serialized_progress D n d0 progs tr c X)|].
  destruct (serialized_linearizable D L n d0 progs tr c X) as (h & LI & E & _). exists h. split; auto.
  intro Z. apply E. rewrite (serialized_count D n d0 progs tr c X) in Z. destruct (z_ser D (fst c)); auto. discriminate.
Qed.
Print Assumptions C52_serialized.
Definition ser_progs : list (list (ev nat)) := [[Next 1; Next 2]; [Next 10; Done]; [Next 20; Err 7]].
Definition ser_ex ser sched := gtol (cistep Z0 (zstep (@plain nat) ser)) sched (z_init plain 2 o_init, cthreads ser_progs).
Example C52_case : let ex := ser_ex true (reps [(0, 5); (1, 4); (2, 2); (0, 1); (1, 30); (2, 3); (0, 30); (1, 30); (2, 30); (0, 30)]) in
  gexec (cistep Z0 (zstep plain true)) (z_init plain 2 o_init, cthreads ser_progs) (fst ex) (snd ex) /\ snd (snd ex) = [[]; []; []] /\
  map (fun j => o_log (z_sub plain (fst (snd ex)) j)) [0; 1] = [[Next 1; Next 2; Next 10; Done]; [Next 1; Next 2; Next 10; Done]].
Proof. split; [apply gtol_sound|]. vm_compute. split; reflexivity. Qed.

(** Without serialization two threads are inside at once. *)
Example C52_needs_lock : let ex := ser_ex false (reps [(0, 4); (1, 4)]) in count in_call (concat (snd (snd ex))) = 2.
Proof. reflexivity. Qed.

(** ** C59 *)

(** A callback that emits into the same serialized subject: its thread waits for ever for a
    mutex that it holds itself. *)
Theorem C59_reentrant_refuted : exists (react : nat -> nat -> list nat) tr c,
  gexec (astep true react) (AG false [0; 1] [], [[ACall 1]]) tr c /\ ~ gfinished c /\ forall ls c', ~ gstep (astep true react) c ls c'.
Proof.
  exists (fun i v => if v =? 1 then [2] else []).
  set (ex := gtol (astep true (fun i v => if v =? 1 then [2] else [])) (repeat 0 9) (AG false [0; 1] [], [[ACall 1]])). exists (fst ex), (snd ex).
  split; [apply gtol_sound|].
  assert (X : exists rest, snd ex = (AG true [0; 1] [(0, 1)], [ACall 2 :: rest])) by (eexists; vm_compute; reflexivity).
  destruct X as [rest E]. rewrite E. clearbody ex. clear E ex.
  split; [intro F; specialize (F _ (or_introl eq_refl)); discriminate|].
  intros ls c' S. inversion S as [s ts1 it r ts2 s' its l ST E1]. destruct ts1 as [|t ts1].
  - match goal with H : [] ++ _ = _ |- _ => cbn in H; injection H as -> -> -> end. discriminate.
  - destruct ts1; discriminate.
Qed.
Print Assumptions C59_reentrant_refuted.
