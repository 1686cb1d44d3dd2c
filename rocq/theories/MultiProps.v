(** Final statements for the operators with several sources (C32, C34-C39, C58). *)
From Verif Require Import Base Machine MachineProofs Concur ObserverModel ChainModel ChainProofs.
From Verif Require Import MultiSpec MultiModel MultiLin MultiCount MultiProofs MultiLatest MultiTakeUntil MultiSeq MultiRace.

(** An observer that accepts everything, and a way to write schedules. *)
Definition plain {V} : machine V := leaf (fun _ _ => RCont).
Definition alive {A} (l : list (ev A)) : list (ev A * bool) := map (fun e => (e, false)) l.
Definition reps (l : list (nat * nat)) : list nat := flat_map (fun x => repeat (fst x) (snd x)) l.

Lemma finished_all : forall S I (c : S * list (list I)), forallb (fun t => match t with [] => true | _ => false end) (snd c) = true -> gfinished c.
Proof. intros S I c H t IN. rewrite forallb_forall in H. specialize (H t IN). destruct t; [auto | discriminate]. Qed.

(** ** C32 *)

(** Whatever the interleaving of the sources' calls, the downstream has received exactly
    the output of a history that contains every call at a moment between its beginning and
    its end; merge_out says what the output of a history is. *)
Theorem C32_merge : forall V (D : machine V), lawful D -> forall d0 progs tr c,
  gexec (istep (merge_op V) D (fun _ => [])) (g_init (merge_op V) D d0, threads (merge_op V) progs) tr c ->
  exists h, linearized (map (map fst) progs) tr h /\
    (g_lock (fst c) = false -> g_down (fst c) = mrun D d0 (outs merge_out h)) /\
    (gfinished c -> g_lock (fst c) = false).
Proof. intros V D L. apply merge_linearizable. exact L. Qed.
Print Assumptions C32_merge.

(** What a history without errors delivers: all values, in the order of the history, and
    completion at the end iff everything has completed. *)
Definition nexts {V} (l : list (ev V)) : list V := flat_map (fun e => match e with Next v => [v] | _ => [] end) l.
Theorem C32_merge_values : forall V (h : hist (unit + V)),
  nexts (outs merge_out h) =
  flat_map (fun x => match x with (S _, Next (inr v)) => [v] | _ => [] end) (live h).
Proof.
  intros V h. unfold outs. generalize (@nil (nat * ev (unit + V))). induction (live h) as [|[i e] l IH]; intro p; cbn [outs_from flat_map]; auto.
  unfold nexts in *. rewrite flat_map_app, IH. f_equal. unfold merge_out.
  destruct e as [[u|v]|x|]; destruct i as [|i]; auto; destruct (forallb _ _); reflexivity.
Qed.
Print Assumptions C32_merge_values.

Definition merge_progs : list (list (ev (unit + nat) * bool)) :=
  [alive [Next (inl tt); Next (inl tt); Done]; alive [Next (inr 10); Next (inr 11); Done]; alive [Next (inr 20); Done]].
Definition merge_ex := gtol (istep (merge_op nat) plain (fun _ => []))
  (reps [(0, 10); (1, 10); (2, 6); (1, 3); (2, 3); (0, 20); (2, 20); (1, 30)]) (g_init (merge_op nat) plain o_init, threads (merge_op nat) merge_progs).
Example C32_case : gexec (istep (merge_op nat) plain (fun _ => [])) (g_init (merge_op nat) plain o_init, threads (merge_op nat) merge_progs)
    (fst merge_ex) (snd merge_ex) /\
  snd (snd merge_ex) = [[]; []; []] /\ o_log (g_down (fst (snd merge_ex))) = [Next 10; Next 20; Next 11; Done].
Proof. split; [apply gtol_sound|]. vm_compute. split; reflexivity. Qed.

(** ** C35 *)
Theorem C35_zip : forall A B n (f : list (option A) -> res B) (D : machine B), lawful D -> forall d0,
  (forall l, exists b, f l = Ok b) -> forall progs tr c,
  gexec (istep (zip_op n f) D (fun _ => [])) (g_init (zip_op n f) D d0, threads (zip_op n f) progs) tr c ->
  exists h, linearized (map (map fst) progs) tr h /\
    (g_lock (fst c) = false -> g_down (fst c) = mrun D d0 (outs (zip_out n (fun l => f (map Some l))) h)) /\
    (gfinished c -> g_lock (fst c) = false).
Proof. intros A B n f D L d0 T. apply zip_linearizable; assumption. Qed.
Print Assumptions C35_zip.

(** The k-th delivered value is made of the k-th values of all sources, and there are as
    many as the slowest source has sent. *)
Lemma row_old : forall A n (h x : hist A) k, k < rows n h -> row n (h ++ x) k = row n h k.
Proof.
  intros A n h x k H. unfold row. f_equal. apply map_ext_in. intros j I. apply in_seq in I.
  rewrite values_app. apply nth_error_app1. pose proof (rows_le A n h j ltac:(lia)). lia.
Qed.
Theorem C35_zip_values : forall A B n (g : list A -> B) h, Forall (fun x => fst x < n) h ->
  map Some (nexts (outs (zip_out n (fun l => Ok (g l))) h)) =
  map (fun k => option_map g (row n (live h) k)) (seq 0 (rows n (live h))).
Proof.
  intros A B n g h. induction h as [|[i e] h IH] using rev_ind; intro F.
  - destruct n as [|n]; cbn; auto. replace (fold_left _ _ 0) with 0; auto.
    symmetry. apply Nat.le_0_r. apply fold_min_le.
  - apply Forall_app in F as [F Fi]. inversion Fi as [|? ? Li _]; subst. cbn in Li. specialize (IH F).
    rewrite outs_snoc, live_snoc. destruct (endedb i (live h)) eqn:E; [now rewrite !app_nil_r|].
    unfold nexts in *. rewrite flat_map_app, map_app, IH. clear IH.
    assert (OLD : forall x, map (fun k => option_map g (row n (live h) k)) (seq 0 (rows n (live h))) =
                  map (fun k => option_map g (row n (live h ++ x) k)) (seq 0 (rows n (live h)))).
    { intro x. apply map_ext_in. intros k I. apply in_seq in I. now rewrite row_old by lia. }
    destruct e as [v|x|]; cbn [zip_out].
    + pose proof (rows_snoc A n (live h) i v Li) as R. destruct (row n (live h ++ [(i, Next v)]) (rows n (live h))) as [l|] eqn:Q.
      * rewrite R. rewrite (proj2 (Nat.ltb_lt _ _)) by lia. cbn [of_res flat_map app map].
        rewrite seq_S, map_app. cbn [map plus]. rewrite Q, <- OLD. reflexivity.
      * rewrite R, Nat.ltb_irrefl. cbn [flat_map map]. rewrite app_nil_r. apply OLD.
    + assert (RE : rows n (live h ++ [(i, Err x)]) = rows n (live h)).
      { unfold rows. f_equal. erewrite map_ext; [reflexivity|]. intro j. rewrite values_app. cbn. destruct (i =? j); cbn; now rewrite app_nil_r. }
      rewrite RE. cbn [flat_map map app]. rewrite app_nil_r. apply OLD.
    + assert (RE : rows n (live h ++ [(i, Done)]) = rows n (live h)).
      { unfold rows. f_equal. erewrite map_ext; [reflexivity|]. intro j. now rewrite values_done. }
      rewrite RE. destruct (all_done _ _); cbn [flat_map map app]; rewrite app_nil_r; apply OLD.
Qed.
Print Assumptions C35_zip_values.

(** Calls that do not overlap, any selector. *)
Theorem C35_zip_sequential : forall A B n (f : list (option A) -> res B) (D : machine B) d0 h, lawful D ->
  Forall (fun x => fst x < n) h ->
  exists g, seq_run (zip_op n f) D (fun _ => []) (g_init _ D d0) h = Some g /\
    g_lock g = false /\ g_down g = mrun D d0 (outs (zip_out n (fun l => f (map Some l))) h).
Proof. intros. apply zip_seq; assumption. Qed.
Print Assumptions C35_zip_sequential.

Definition add2 (l : list (option nat)) : res nat := Ok (fold_right (fun x s => match x with Some v => v + s | None => 1000 end) 0 l).
Definition zip_progs : list (list (ev nat * bool)) :=
  [alive [Next 1; Next 2; Next 3; Done]; alive [Next 10; Next 20; Done]].
Definition zip_ex := gtol (istep (zip_op 2 add2) plain (fun _ => []))
  (reps [(0, 3); (1, 6); (0, 3); (1, 4); (0, 12); (1, 40); (0, 40)]) (g_init (zip_op 2 add2) plain o_init, threads (zip_op 2 add2) zip_progs).
Example C35_case : gexec (istep (zip_op 2 add2) plain (fun _ => [])) (g_init (zip_op 2 add2) plain o_init, threads (zip_op 2 add2) zip_progs)
    (fst zip_ex) (snd zip_ex) /\
  snd (snd zip_ex) = [[]; []] /\ o_log (g_down (fst (snd zip_ex))) = [Next 11; Next 22; Done] /\ (forall l, exists b, add2 l = Ok b).
Proof. split; [apply gtol_sound|]. split; [vm_compute; reflexivity|]. split; [vm_compute; reflexivity|]. intro l. eexists. reflexivity. Qed.

(** ** C36 *)
Theorem C36_combine_latest : forall A B n (f : list A -> res B) (D : machine B), lawful D -> forall d0,
  (forall l, exists b, f l = Ok b) -> forall progs tr c,
  gexec (istep (combine_latest_op n f) D (fun _ => [])) (g_init (combine_latest_op n f) D d0, threads (combine_latest_op n f) progs) tr c ->
  exists h, linearized (map (map fst) progs) tr h /\
    (g_lock (fst c) = false -> g_down (fst c) = mrun D d0 (outs (combine_latest_out n f) h)) /\
    (gfinished c -> g_lock (fst c) = false).
Proof. intros A B n f D L d0 T. apply combine_latest_linearizable; assumption. Qed.
Print Assumptions C36_combine_latest.

Theorem C36_combine_latest_sequential : forall A B n (f : list A -> res B) (D : machine B) d0 h, lawful D ->
  Forall (fun x => fst x < n) h ->
  exists g, seq_run (combine_latest_op n f) D (fun _ => []) (g_init _ D d0) h = Some g /\
    g_lock g = false /\ g_down g = mrun D d0 (outs (combine_latest_out n f) h).
Proof. intros. apply combine_latest_seq; assumption. Qed.
Print Assumptions C36_combine_latest_sequential.

Definition add2l (l : list nat) : res nat := Ok (list_sum l).
Definition cl_ex := gtol (istep (combine_latest_op 2 add2l) plain (fun _ => []))
  (reps [(0, 3); (1, 6); (0, 3); (1, 4); (0, 12); (1, 40); (0, 40)])
  (g_init (combine_latest_op 2 add2l) plain o_init, threads (combine_latest_op 2 add2l) zip_progs).
Example C36_case : gexec (istep (combine_latest_op 2 add2l) plain (fun _ => []))
    (g_init (combine_latest_op 2 add2l) plain o_init, threads (combine_latest_op 2 add2l) zip_progs) (fst cl_ex) (snd cl_ex) /\
  snd (snd cl_ex) = [[]; []] /\ o_log (g_down (fst (snd cl_ex))) = [Next 11; Next 12; Next 22; Next 23; Done] /\ (forall l, exists b, add2l l = Ok b).
Proof. split; [apply gtol_sound|]. split; [vm_compute; reflexivity|]. split; [vm_compute; reflexivity|]. intro l. eexists. reflexivity. Qed.

(** ** C37 *)
Theorem C37_with_latest_from : forall A B n (f : A -> list A -> res B) (D : machine B), lawful D -> forall d0,
  (forall v l, exists b, f v l = Ok b) -> forall progs tr c,
  gexec (istep (with_latest_op n f) D (fun _ => [])) (g_init (with_latest_op n f) D d0, threads (with_latest_op n f) progs) tr c ->
  exists h, linearized (map (map fst) progs) tr h /\
    (g_lock (fst c) = false -> g_down (fst c) = mrun D d0 (outs (with_latest_out n f) h)) /\
    (gfinished c -> g_lock (fst c) = false).
Proof. intros A B n f D L d0 T. apply with_latest_linearizable; assumption. Qed.
Print Assumptions C37_with_latest_from.

Theorem C37_with_latest_from_sequential : forall A B n (f : A -> list A -> res B) (D : machine B) d0 h, lawful D ->
  Forall (fun x => fst x <= n) h ->
  exists g, seq_run (with_latest_op n f) D (fun _ => []) (g_init _ D d0) h = Some g /\
    g_lock g = false /\ g_down g = mrun D d0 (outs (with_latest_out n f) h).
Proof. intros. apply with_latest_seq; assumption. Qed.
Print Assumptions C37_with_latest_from_sequential.

Definition wl_sel (v : nat) (l : list nat) : res nat := Ok (v + list_sum l).
Definition wl_progs : list (list (ev nat * bool)) :=
  [alive [Next 1; Next 2; Next 3; Done]; alive [Next 10; Next 20; Done]].
Definition wl_ex := gtol (istep (with_latest_op 1 wl_sel) plain (fun _ => []))
  (reps [(0, 4); (1, 4); (0, 6); (1, 12); (0, 40)])
  (g_init (with_latest_op 1 wl_sel) plain o_init, threads (with_latest_op 1 wl_sel) wl_progs).
Example C37_case : gexec (istep (with_latest_op 1 wl_sel) plain (fun _ => []))
    (g_init (with_latest_op 1 wl_sel) plain o_init, threads (with_latest_op 1 wl_sel) wl_progs) (fst wl_ex) (snd wl_ex) /\
  snd (snd wl_ex) = [[]; []] /\ o_log (g_down (fst (snd wl_ex))) = [Next 12; Next 23; Done] /\ (forall v l, exists b, wl_sel v l = Ok b).
Proof. split; [apply gtol_sound|]. split; [vm_compute; reflexivity|]. split; [vm_compute; reflexivity|]. intros v l. eexists. reflexivity. Qed.

(** ** C38 *)
(** [os]: the last event may already count although its downstream call is still to come. *)
Theorem C38_take_until : forall A (D : machine A), lawful D -> forall d0 progs tr c,
  gexec (istep (take_until_op A) D (fun _ => [])) (g_init (take_until_op A) D d0, threads (take_until_op A) progs) tr c ->
  exists h os, linearized (map (map fst) progs) tr h /\
    length os <= 1 /\ mrun D (g_down (fst c)) os = mrun D d0 (outs take_until_out h) /\
    (gfinished c -> os = [] /\ g_lock (fst c) = false).
Proof. intros A D L. apply take_until_linearizable; assumption. Qed.
Print Assumptions C38_take_until.

(** The history's output: the source's events up to the first notifier event. *)
Definition until_notifier {A} (h : hist A) : list (ev A) :=
  (fix go h := match h with
               | [] => []
               | (0, e) :: r => e :: go r
               | (_, Err x) :: _ => [Err x]
               | (_, _) :: _ => [Done]
               end) h.
Theorem C38_take_until_output : forall A (h : hist A), Forall (fun x => fst x <= 1) h ->
  outs take_until_out h = until_notifier (live h).
Proof.
  intros A h F. assert (FL : Forall (fun x => fst x <= 1) (live h)).
  { unfold live. generalize (@nil nat). induction F as [|[i e] l Hi F IH]; intro en; cbn; auto.
    destruct (existsb _ en); auto. }
  unfold outs. revert FL. generalize (live h). intros l FL.
  assert (DEAD : forall l p, existsb (fun x => fst x =? 1) p = true -> outs_from take_until_out p l = ([] : list (ev A))).
  { clear. induction l as [|[i e] l IH]; intros p H; cbn [outs_from]; auto. unfold take_until_out at 1. rewrite H. cbn.
    apply IH. now rewrite existsb_app, H. }
  assert (X : forall p, existsb (fun x => fst x =? 1) p = false -> outs_from take_until_out p l = until_notifier l).
  { induction FL as [|[i e] l Hi FL IH]; intros p H; cbn [outs_from]; auto. cbn [fst] in Hi. unfold take_until_out at 1. rewrite H.
    destruct i as [|[|i]]; [| |lia].
    - cbn [Nat.eqb app]. rewrite IH by (rewrite existsb_app, H; reflexivity). reflexivity.
    - cbn [Nat.eqb]. rewrite DEAD by (rewrite existsb_app; cbn; now rewrite orb_true_r). rewrite app_nil_r. destruct e; reflexivity. }
  apply X. reflexivity.
Qed.
Print Assumptions C38_take_until_output.

Definition tu_progs : list (list (ev nat * bool)) := [alive [Next 1; Next 2; Next 3; Done]; alive [Next 7]].
Definition tu_ex := gtol (istep (take_until_op nat) plain (fun _ => []))
  (reps [(0, 10); (1, 3); (0, 2); (1, 40); (0, 40)])
  (g_init (take_until_op nat) plain o_init, threads (take_until_op nat) tu_progs).
Example C38_case : gexec (istep (take_until_op nat) plain (fun _ => []))
    (g_init (take_until_op nat) plain o_init, threads (take_until_op nat) tu_progs) (fst tu_ex) (snd tu_ex) /\
  snd (snd tu_ex) = [[]; []] /\ o_log (g_down (fst (snd tu_ex))) = [Next 1; Done].
Proof. split; [apply gtol_sound|]. vm_compute. split; reflexivity. Qed.

(** ** C34 *)
(** Calls that do not overlap. *)
Theorem C34_switch_partial : forall V (D : machine V), lawful D -> forall d0 h g,
  seq_run (switch_op V) D (fun _ => []) (g_init (switch_op V) D d0) h = Some g ->
  g_lock g = false /\ g_down g = mrun D d0 (outs switch_out h).
Proof. intros V D L. apply switch_seq; assumption. Qed.
Print Assumptions C34_switch_partial.

Theorem C34_switch_accepts : forall V (D : machine V), lawful D -> forall d0 h g i e,
  seq_run (switch_op V) D (fun _ => []) (g_init (switch_op V) D d0) h = Some g ->
  mdisp D (g_down g) = false -> i <= opened (live h) ->
  exists g', seq_run (switch_op V) D (fun _ => []) (g_init (switch_op V) D d0) (h ++ [(i, e)]) = Some g'.
Proof. intros V D L. apply switch_seq_some; assumption. Qed.
Print Assumptions C34_switch_accepts.

Example C34_case : exists g, seq_run (switch_op nat) plain (fun _ => []) (g_init (switch_op nat) plain o_init)
   [(0, Next (inl tt)); (1, Next (inr 10)); (0, Next (inl tt)); (1, Next (inr 11)); (2, Next (inr 20)); (0, Done); (1, Done); (2, Next (inr 21)); (2, Done)] = Some g /\
   o_log (g_down g) = [Next 10; Next 20; Next 21; Done].
Proof. eexists. split; [vm_compute; reflexivity | reflexivity]. Qed.

(** An execution whose result no order of the calls explains. *)
Definition lin_fail {A B} (o : mop A B) (out : hist A -> nat -> ev A -> list (ev B)) : Prop :=
  exists (D : machine B) (d0 : mst D) progs tr c, lawful D /\
    gexec (istep o D (fun _ => [])) (g_init o D d0, threads o progs) tr c /\ gfinished c /\
    forall h, linearized (map (map fst) progs) tr h -> g_down (fst c) <> mrun D d0 (outs out h).
Lemma lin_fail_witness : forall A B (o : mop A B) out D d0 progs sched (bad : mst D -> bool), lawful D ->
  let ex := gtol (istep o D (fun _ => [])) sched (g_init o D d0, threads o progs) in
  forallb (fun t => match t with [] => true | _ => false end) (snd (snd ex)) = true ->
  bad (g_down (fst (snd ex))) = true ->
  forallb (fun h => negb (bad (mrun D d0 (outs out h)))) (inter (length (concat (map (map fst) progs))) (map (map fst) progs)) = true ->
  lin_fail o out.
Proof.
  intros A B o out D d0 progs sched bad L ex F BD NB. exists D, d0, progs, (fst ex), (snd ex). split; [exact L|]. split; [apply gtol_sound|].
  split; [now apply finished_all|]. intros h LI E. apply all_linearizations in LI. rewrite forallb_forall in NB. apply NB in LI.
  rewrite <- E, BD in LI. discriminate.
Qed.

(** With overlapping calls it is false: inner 1 has passed its is_disposed() check, the
    outer source sends inner 2, inner 2 delivers 20, and only then inner 1 delivers 10. *)
Definition sw_progs : list (list (ev (unit + nat) * bool)) :=
  [alive [Next (inl tt); Next (inl tt)]; alive [Next (inr 10)]; alive [Next (inr 20)]].
Definition is_20_10 (l : list (ev nat)) : bool :=
  match l with [Next a; Next b] => (a =? 20) && (b =? 10) | _ => false end.
Theorem C34_switch_concurrent_refuted : lin_fail (switch_op nat) switch_out.
Proof.
  apply (lin_fail_witness _ _ (switch_op nat) switch_out plain o_init sw_progs (reps [(0, 5); (1, 3); (0, 5); (2, 20); (1, 20)])
           (fun d => is_20_10 (o_log d))); [apply leaf_lawful | | |]; vm_compute; reflexivity.
Qed.
Print Assumptions C34_switch_concurrent_refuted.

(** ** C39 *)
(** Without re-entrant emission nothing blocks: some call can go on, unless all remaining
    ones belong to sources that have not been subscribed. *)
Theorem C39_no_deadlock_partial : forall A B (o : mop A B) (D : machine B) progs d tr c,
  gexec (istep o D (fun _ => [])) (g_init o D d, threads o progs) tr c ->
  (exists ls c', gstep (istep o D (fun _ => [])) c ls c') \/
  (forall t, In t (snd c) -> match t with [] => True | IRun i _ _ P0 :: _ => mo_ready o (g_op (fst c)) i = false | _ => False end).
Proof. intros A B o D progs d tr c X. exact (progress o D progs d tr c X). Qed.
Print Assumptions C39_no_deadlock_partial.
Example C39_case : snd (snd (gtol (istep (merge_op nat) plain (fun _ => [])) (reps [(0, 5); (1, 5); (2, 9)])
  (g_init (merge_op nat) plain o_init, threads (merge_op nat) merge_progs))) <> [[]; []; []] /\
  g_lock (fst (snd (gtol (istep (merge_op nat) plain (fun _ => [])) (reps [(0, 5); (1, 5); (2, 9)])
  (g_init (merge_op nat) plain o_init, threads (merge_op nat) merge_progs)))) = true.
Proof. vm_compute. split; [discriminate | reflexivity]. Qed.

(** With a downstream callback that makes another source emit, the thread waits for the
    mutex it holds itself: nothing can move any more and the calls are not finished. *)
Definition deadlocks {A B} (o : mop A B) : Prop :=
  exists D (d : mst D) react progs tr c, lawful D /\
    gexec (istep o D react) (g_init o D d, threads o progs) tr c /\
    (forall ls c', ~ gstep (istep o D react) c ls c') /\ ~ gfinished c /\ g_lock (fst c) = true.
Lemma deadlock_witness : forall A B (o : mop A B) D d react progs sched, lawful D ->
  let ex := gtol (istep o D react) sched (g_init o D d, threads o progs) in
  stuckb o D react (snd ex) = true -> forallb (fun t => match t with [] => true | _ => false end) (snd (snd ex)) = false ->
  g_lock (fst (snd ex)) = true -> deadlocks o.
Proof.
  intros A B o D d react progs sched L ex S F LK. exists D, d, react, progs, (fst ex), (snd ex). split; [exact L|]. split; [apply gtol_sound|].
  split; [now apply stuckb_stuck|]. split; auto. intro G. unfold gfinished in G.
  assert (Y : forallb (fun t : list (item o) => match t with [] => true | _ => false end) (snd (snd ex)) = true).
  { apply forallb_forall. intros t I. now rewrite (G t I). }
  congruence.
Qed.

Definition once {V W} (l : list W) (d : mst (@plain V)) : list W := match o_log d with [_] => l | _ => [] end.
Theorem C39_merge_reentrant_refuted : deadlocks (merge_op nat).
Proof.
  apply (deadlock_witness _ _ (merge_op nat) plain o_init (once [(2, Next (inr 5))])
    [alive [Next (inl tt); Next (inl tt)]; alive [Next (inr 10)]] (reps [(0, 10); (1, 20)])); [apply leaf_lawful | | |]; vm_compute; reflexivity.
Qed.
Print Assumptions C39_merge_reentrant_refuted.
Theorem C39_zip_reentrant_refuted : deadlocks (zip_op 2 add2).
Proof.
  apply (deadlock_witness _ _ (zip_op 2 add2) plain o_init (once [(0, Next 5)])
    [alive [Next 1]; alive [Next 10]] (reps [(0, 10); (1, 20)])); [apply leaf_lawful | | |]; vm_compute; reflexivity.
Qed.
Print Assumptions C39_zip_reentrant_refuted.
Theorem C39_combine_latest_reentrant_refuted : deadlocks (combine_latest_op 2 add2l).
Proof.
  apply (deadlock_witness _ _ (combine_latest_op 2 add2l) plain o_init (once [(0, Next 5)])
    [alive [Next 1]; alive [Next 10]] (reps [(0, 10); (1, 20)])); [apply leaf_lawful | | |]; vm_compute; reflexivity.
Qed.
Print Assumptions C39_combine_latest_reentrant_refuted.
(** take_until locks already in is_disposed(), so even an ignored event blocks. *)
Theorem C39_take_until_reentrant_refuted : deadlocks (take_until_op nat).
Proof.
  apply (deadlock_witness _ _ (take_until_op nat) plain o_init (once [(1, Next 5)])
    [alive [Next 1]] (reps [(0, 20)])); [apply leaf_lawful | | |]; vm_compute; reflexivity.
Qed.
Print Assumptions C39_take_until_reentrant_refuted.
Theorem C39_switch_reentrant_refuted : deadlocks (switch_op nat).
Proof.
  apply (deadlock_witness _ _ (switch_op nat) plain o_init (once [(0, Err 5)])
    [alive [Next (inl tt)]; alive [Next (inr 10)]] (reps [(0, 10); (1, 20)])); [apply leaf_lawful | | |]; vm_compute; reflexivity.
Qed.
Print Assumptions C39_switch_reentrant_refuted.

(** ** C58 *)
(** zip: the selector throws on source 1's thread; the mutex is released before on_error is
    called, and source 0's next value calls the selector with moved-from values. *)
Definition throw2 (l : list (option nat)) : res nat := if forallb (fun x => match x with Some _ => true | None => false end) l then Throw 7 else Ok 99.
Definition zthrow_progs : list (list (ev nat * bool)) := [alive [Next 1; Next 5]; alive [Next 2]].
Definition is_99_err (l : list (ev nat)) : bool := match l with [Next a; Err b] => (a =? 99) && (b =? 7) | _ => false end.
Theorem C58_zip_throw_refuted : lin_fail (zip_op 2 throw2) (zip_out 2 (fun l => throw2 (map Some l))).
Proof.
  apply (lin_fail_witness _ _ (zip_op 2 throw2) _ plain o_init zthrow_progs (reps [(0, 10); (1, 7); (0, 20); (1, 20)])
           (fun d => is_99_err (o_log d))); [apply leaf_lawful | | |]; vm_compute; reflexivity.
Qed.
Print Assumptions C58_zip_throw_refuted.

Definition throw3 (l : list nat) : res nat := match l with [1; 2] => Throw 7 | _ => Ok 99 end.
Theorem C58_combine_latest_throw_refuted : lin_fail (combine_latest_op 2 throw3) (combine_latest_out 2 throw3).
Proof.
  apply (lin_fail_witness _ _ (combine_latest_op 2 throw3) _ plain o_init zthrow_progs (reps [(0, 10); (1, 7); (0, 20); (1, 20)])
           (fun d => is_99_err (o_log d))); [apply leaf_lawful | | |]; vm_compute; reflexivity.
Qed.
Print Assumptions C58_combine_latest_throw_refuted.

(** When calls do not overlap the claim holds: after a throw the downstream has the error
    and nothing more. *)
Theorem C58_throw_sequential : forall A B n (f : list (option A) -> res B) (k : list A -> res B) (D : machine B) d0 h, lawful D ->
  Forall (fun x => fst x < n) h ->
  (exists g, seq_run (zip_op n f) D (fun _ => []) (g_init _ D d0) h = Some g /\
     g_down g = mrun D d0 (outs (zip_out n (fun l => f (map Some l))) h)) /\
  (exists g, seq_run (combine_latest_op n k) D (fun _ => []) (g_init _ D d0) h = Some g /\
     g_down g = mrun D d0 (outs (combine_latest_out n k) h)).
Proof.
  intros A B n f k D d0 h L F. split.
  - destruct (zip_seq A B n f D d0 h L F) as (g & R & _ & E). eauto.
  - destruct (combine_latest_seq A B n k D d0 h L F) as (g & R & _ & E). eauto.
Qed.
Print Assumptions C58_throw_sequential.
Example C58_case : exists g, seq_run (zip_op 2 throw2) plain (fun _ => []) (g_init _ plain o_init) [(0, Next 1); (1, Next 2); (0, Next 5); (1, Done)] = Some g /\
  o_log (g_down g) = [Err 7].
Proof. eexists. split; [vm_compute; reflexivity | reflexivity]. Qed.
