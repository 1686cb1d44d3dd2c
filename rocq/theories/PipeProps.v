(** C86: pipelines that change threads on the way. *)
From Verif Require Import Base Machine ObserverModel MultiSpec MultiProps OpsSpec OpsModel ChainSpec ChainModel TreeSpec TreeModel Concur DelaySpec PipeSpec PipeModel PipeProofs PipeEnd PipeTerm.
Open Scope nat_scope.

(** Chains of operators with delay or observe_on between them, any number of hops, each with its
    own delay and worker thread (or one shared with other hops, or none); any clock; any number of
    disposals from outside; any schedule: the subscriber is called with a beginning of what the
    operators show without hops, one call at a time, with none begun after a disposal, and its
    state is what these calls make of it. *)
Theorem C86_order : forall V (D : machine V) segs hops src d0 workers clock kills tr s ts, lawful D -> segs <> [] ->
  gexec (pstep D segs hops) (p_init D segs src d0, p_threads segs workers clock kills) tr (s, ts) ->
  prefix (map fst (DelaySpec.shown tr)) (heard (chain_spec (whole segs) src)) /\ serial false tr /\ stops tr /\
  (~ In DKill tr -> p_d s = mrun D d0 (map fst (DelaySpec.shown tr))) /\ (In DKill tr -> mdisp D (p_d s) = true).
Proof.
  intros V D segs hops src d0 workers clock kills tr s ts L NE X. destruct (pipe_inv D segs hops src d0 L workers clock kills NE _ _ _ X) as (_ & _ & [A B C E F G]).
  repeat split; auto.
Qed.
Print Assumptions C86_order.

(** When nothing more happens however long one waits, and the subscriber is not disposed, it has
    been called with all of it; provided each hop's worker thread is there and no error arrives at
    an observe_on (C44). *)
Theorem C86_complete : forall V (D : machine V) segs hops src d0 workers clock kills tr s ts, lawful D -> segs <> [] ->
  (forall i, i < last_seg segs -> h_clear (hops (S i)) = true -> no_error (arrives segs (S i) src)) ->
  (forall i w, 1 <= i <= last_seg segs -> h_where (hops i) = Some w -> In w workers) ->
  gexec (pstep D segs hops) (p_init D segs src d0, p_threads segs workers clock kills) tr (s, ts) ->
  (forall m it r, In (it :: r) ts -> pstep D segs hops (wait D m s) it = None) -> mdisp D (p_d s) = false ->
  map fst (DelaySpec.shown tr) = heard (chain_spec (whole segs) src).
Proof. intros V D segs hops src d0 workers clock kills tr s ts L NE EA WK X R DS. exact (pipe_complete D segs hops src d0 L NE workers clock kills EA WK tr s ts X R DS). Qed.
Print Assumptions C86_complete.

(** The hops make no difference to the subscriber: without disposals from outside it ends in the
    state in which the same operators leave it when they are put together without hops, also if it
    stops of its own accord half way. *)
Theorem C86_same : forall V (D : machine V) segs hops src d0 workers clock kills tr s ts, lawful D -> segs <> [] ->
  (forall i, i < last_seg segs -> h_clear (hops (S i)) = true -> no_error (arrives segs (S i) src)) ->
  (forall i w, 1 <= i <= last_seg segs -> h_where (hops i) = Some w -> In w workers) ->
  gexec (pstep D segs hops) (p_init D segs src d0, p_threads segs workers clock kills) tr (s, ts) ->
  (forall m it r, In (it :: r) ts -> pstep D segs hops (wait D m s) it = None) -> ~ In DKill tr ->
  p_d s = bottom (whole segs) D (mrun (build (whole segs) D) (build_init (whole segs) D d0) src).
Proof. intros V D segs hops src d0 workers clock kills tr s ts L NE EA WK X R NK. exact (pipe_same D segs hops src d0 L NE workers clock kills EA WK tr s ts X R NK). Qed.
Print Assumptions C86_same.

(** Every run comes to rest: the number of steps of all threads together is bounded. *)
Theorem C86_ends : forall V (D : machine V) segs hops src d0 workers clock kills, lawful D -> segs <> [] ->
  exists bound, forall c k, runs D segs hops src d0 workers clock kills c k -> k <= bound.
Proof. intros V D segs hops src d0 workers clock kills L NE. eexists. intros c k R. pose proof (runs_bound D segs hops src d0 L NE workers clock kills c k R). eapply Nat.le_trans; [|exact H]. lia. Qed.
Print Assumptions C86_ends.

(** filter(odd) | observe_on(worker 0) | scan(0, +) | delay(2, worker 1) | take(3) over 1, 2, 3, 4, 5. *)
Definition pi_segs : list (chain nat nat) :=
  [ChCons nat nat nat (LFilter nat (fun x => Ok (Nat.odd x))) (ChNil nat);
   ChCons nat nat nat (LScan nat nat (fun a b => Ok (a + b)) 0) (ChNil nat);
   ChCons nat nat nat (LTake nat 3) (ChNil nat)].
Definition pi_hops (i : nat) : hop := match i with 1 => Hop true 0 (Some 0) | _ => Hop false 2 (Some 1) end.
Definition pi_src : list (ev nat) := [Next 1; Next 2; Next 3; Next 4; Next 5; Done].
Definition pi_step := pstep plain pi_segs pi_hops.
Definition pi_c0 := (p_init plain pi_segs pi_src o_init, p_threads pi_segs [0; 1] [1; 3; 5] 0).
Definition pi_ex := gtol pi_step (reps [(0, 6); (3, 1); (2, 4); (1, 7); (0, 9); (2, 9); (3, 1); (1, 9); (2, 9); (4, 1); (0, 30); (1, 30); (2, 30); (5, 1); (2, 30)]) pi_c0.
Example C86_case : gexec pi_step pi_c0 (fst pi_ex) (snd pi_ex) /\
  DelaySpec.shown (fst pi_ex) = [(Next 0, 4); (Next 1, 4); (Next 4, 9); (Done, 9)] /\ snd (snd pi_ex) = [[]; [PWork 0]; [PWork 1]; []; []; []] /\
  o_log (p_d (fst (snd pi_ex))) = [Next 0; Next 1; Next 4; Done].
Proof. split; [apply gtol_sound|]. vm_compute. repeat split. Qed.
