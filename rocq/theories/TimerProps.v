(** C76: timer (rpp/sources/timer.hpp:25-44, interval with period zero, then take(1)), and
    interval followed by take(m) in general. *)
From Coq Require Import ZArith.
From Verif Require Import Base Machine MachineProofs ObserverModel OpsModel OpsSpec OpsProofs ChainModel ChainProofs MultiSpec MultiLin MultiRace MultiProps Concur SrcSpec SrcModel SrcProofs SrcProps.

Section TimerP.
  Context {A : Type} (D : machine A) (L : lawful D).

  Definition upto (mk : nat -> A) (n : nat) : list (ev A) := map (fun i => Next (mk i)) (seq 0 n).
  Lemma upto_S : forall mk n, upto mk (S n) = upto mk n ++ [Next (mk n)].
  Proof. intros. unfold upto. now rewrite seq_S, map_app. Qed.
  Lemma ticks_app : forall a b, ticks (a ++ b) = ticks a ++ ticks b.
  Proof. intros. unfold ticks. apply filter_app. Qed.

  (** The observer and the ticks so far. *)
  Definition xinv (mk : nat -> A) (t p : Z) (d0 d : mst D) (t0 : list (item A)) (tr : list slab) : Prop :=
    match t0 with
    | [ISub s'] | [IPickSub s'] => ticks tr = [] /\ strip s' = Interval mk t p
    | [ITick mk' _ _ n'] | [ITickRun mk' _ _ n'] => n' = length (ticks tr) /\ mk' = mk
    | [] => True
    | _ => False
    end /\
    (existsb is_kill tr = false -> d = mrun D d0 (upto mk (length (ticks tr)))) /\
    (forall a b, tr = a ++ LKill :: b -> existsb is_kill a = false -> d = mkill D (mrun D d0 (upto mk (length (ticks a))))).

  Lemma quiet_kill : forall (tr ls a b : list slab), existsb is_kill ls = false -> tr ++ ls = a ++ LKill :: b -> exists b', tr = a ++ LKill :: b'.
  Proof.
    intros tr ls a b H E. destruct (split_kill tr ls a b) as (b1 & -> & _); eauto.
    intro I. assert (existsb is_kill ls = true); [apply existsb_exists; exists LKill; auto|congruence].
  Qed.

  Lemma xinv_step : forall mk t p d0 d it rest tr' d' its ls, it <> IKill -> xinv mk t p d0 d (it :: rest) tr' ->
    sstep D d it = Some (d', its, ls) -> xinv mk t p d0 d' (its ++ rest) (tr' ++ ls).
  Proof.
    intros mk t p d0 d it rest tr' d' its ls NK (I & R1 & R2) Q. unfold xinv. destruct rest; [rewrite app_nil_r|destruct it; destruct I].
    assert (SAME : ls = [] -> d' = d ->
      (existsb is_kill (tr' ++ ls) = false -> d' = mrun D d0 (upto mk (length (ticks (tr' ++ ls))))) /\
      (forall a b, tr' ++ ls = a ++ LKill :: b -> existsb is_kill a = false -> d' = mkill D (mrun D d0 (upto mk (length (ticks a)))))).
    { intros -> ->. rewrite app_nil_r. auto. }
    destruct it as [|z| | | | | | | | |mk' t' p' n'|mk' t' p' n'|z]; try destruct I; cbn [sstep] in Q.
    + destruct z; cbn [strip] in H0; try discriminate; inversion Q; subst d' its ls; (split; [|now apply SAME]); rewrite app_nil_r; auto.
      inversion H0; subst. rewrite H. auto.
    + destruct (mdisp D d) eqn:M; inversion Q; subst d' its ls; (split; [|now apply SAME]); rewrite ?app_nil_r; auto.
    + inversion Q; subst d' its ls n' mk'. rewrite ticks_app, existsb_app. cbn [ticks filter is_tick app existsb is_kill orb]. rewrite app_length. cbn [length].
      split; [split; auto; lia|]. split.
      * intro H. rewrite orb_false_r in H. rewrite (R1 H) at 1. now rewrite mrun1, Nat.add_1_r, upto_S.
      * intros a b AB KA. destruct (fun H => quiet_kill tr' _ a b H AB) as (b' & AB'); [reflexivity|].
        rewrite <- (R2 a b' AB' KA). apply (law_dead _ L). rewrite (R2 a b' AB' KA). apply (law_kill _ L).
    + destruct (mdisp D d) eqn:M; inversion Q; subst d' its ls; (split; [|now apply SAME]); rewrite ?app_nil_r; auto.
  Qed.
  Lemma xinv_kill : forall mk t p d0 d t0 tr', xinv mk t p d0 d t0 tr' -> xinv mk t p d0 (mkill D d) t0 (tr' ++ [LKill]).
  Proof.
    intros mk t p d0 d t0 tr' (I & R1 & R2). unfold xinv. rewrite ticks_app. cbn [ticks filter is_tick]. rewrite app_nil_r. split; auto.
    rewrite existsb_app. cbn. rewrite orb_true_r. split; [discriminate|]. intros a b AB KA.
    destruct (existsb is_kill tr') eqn:KT.
    + assert (exists b', tr' = a ++ LKill :: b') as (b' & ->).
      { destruct (rev b) as [|y rb] eqn:RB.
        - apply (f_equal (@rev _)) in RB. rewrite rev_involutive in RB. cbn in RB. subst b. apply app_inj_tail in AB as [-> _]. congruence.
        - apply (f_equal (@rev _)) in RB. rewrite rev_involutive in RB. cbn in RB. subst b. exists (rev rb).
          change (a ++ LKill :: rev rb ++ [y]) with (a ++ (LKill :: rev rb) ++ [y]) in AB. rewrite app_assoc in AB. apply app_inj_tail in AB as [-> _]. auto. }
      rewrite (R2 a b' eq_refl KA). rewrite (law_kill_dead _ L); auto. apply (law_kill _ L).
    + assert (a = tr') as ->.
      { destruct (rev b) as [|y rb] eqn:RB.
        - apply (f_equal (@rev _)) in RB. rewrite rev_involutive in RB. cbn in RB. subst b. apply app_inj_tail in AB as [-> _]. auto.
        - apply (f_equal (@rev _)) in RB. rewrite rev_involutive in RB. cbn in RB. subst b.
          change (a ++ LKill :: rev rb ++ [y]) with (a ++ (LKill :: rev rb) ++ [y]) in AB. rewrite app_assoc in AB. apply app_inj_tail in AB as [-> _].
          rewrite existsb_app in KT. cbn in KT. rewrite orb_true_r in KT. discriminate. }
      now rewrite <- R1.
  Qed.
  Lemma xinv_0 : forall s mk t p d0, strip s = Interval mk t p -> xinv mk t p d0 d0 [ISub s] [].
  Proof. intros. unfold xinv. cbn. split; auto. split; auto. intros [] b H'; discriminate. Qed.

  Lemma interval_now : forall s mk t p d0 k tr c, strip s = Interval mk t p -> gexec (sstep D) (src_start D s d0 k) tr c ->
    (existsb is_kill tr = false -> fst c = mrun D d0 (upto mk (length (ticks tr)))) /\
    (forall a b, tr = a ++ LKill :: b -> existsb is_kill a = false -> fst c = mkill D (mrun D d0 (upto mk (length (ticks a))))).
  Proof.
    intros s mk t p d0 k tr c SI E.
    destruct (src_inv D (fun d t0 tr => xinv mk t p d0 d t0 tr)) with (s := s) (d0 := d0) (k := k) (tr := tr) (c := c) as (t0 & gs & T & _ & R1 & R2); auto.
    - apply xinv_step.
    - apply xinv_kill.
    - now apply xinv_0.
  Qed.
End TimerP.

(** interval: after n runs the observer has got exactly mk 0 ... mk (n-1), value n within the run
    with number n; disposing it freezes it at what it had got by then. *)
Theorem C55_interval_now : forall A (D : machine A), lawful D -> forall s mk t p d0 k tr c, strip s = Interval mk t p ->
  gexec (sstep D) (src_start D s d0 k) tr c ->
  (existsb is_kill tr = false -> fst c = mrun D d0 (map (fun i => Next (mk i)) (seq 0 (length (ticks tr))))) /\
  (forall a b, tr = a ++ LKill :: b -> existsb is_kill a = false ->
     fst c = mkill D (mrun D d0 (map (fun i => Next (mk i)) (seq 0 (length (ticks a)))))).
Proof. intros A D L. exact (interval_now D L). Qed.
Print Assumptions C55_interval_now.

Section Take.
  Context {A : Type} (D : machine A) (L : lawful D) (m : nat).
  Notation D' := (lift (@take_op A m) D).
  Lemma take_lawful : lawful D'.
  Proof. apply lift_lawful; auto. apply fwd_ok. Qed.

  (** How often interval runs before take(m) ends it. *)
  Definition cinv (d : mst D') (t0 : list (item A)) (tr : list slab) : Prop :=
    length (ticks tr) <= m /\
    match t0 with [ITickRun _ _ _ _] => length (ticks tr) < m | [_] | [] => True | _ => False end /\
    (mdisp D' d = false -> fst d = m - length (ticks tr) /\ length (ticks tr) < m).

  Lemma take_ticks : forall s mk t p d0 k tr c, 0 < m -> strip s = Interval mk t p ->
    gexec (sstep D') (src_start D' s (lift_init (take_op m) D d0) k) tr c -> length (ticks tr) <= m.
  Proof.
    intros s mk t p d0 k tr c M SI E. pose proof take_lawful as L'.
    destruct (src_inv D' (fun d t0 tr => xinv D' mk t p (lift_init (take_op m) D d0) d t0 tr /\ cinv d t0 tr)) with (s := s) (d0 := lift_init (take_op m) D d0) (k := k) (tr := tr) (c := c) as (t0 & gs & T & _ & R & _); auto.
    - intros d it rest tr' d' its ls NK (X & R1 & R2 & R3) Q. split; [eapply xinv_step; eauto|]. destruct X as (I & _).
      unfold cinv. destruct rest; [rewrite app_nil_r|destruct it; destruct I].
      destruct it as [|z| | | | | | | | |mk' t' p' n'|mk' t' p' n'|z]; try destruct I; cbn [sstep] in Q.
      + destruct z; cbn [strip] in H0; try discriminate; inversion Q; subst d' its ls; rewrite app_nil_r; auto.
      + destruct (mdisp D' d) eqn:MD; inversion Q; subst d' its ls; rewrite app_nil_r; rewrite MD; auto. split; auto. split; auto. now apply R3.
      + assert (E1 : length (ticks (tr' ++ ls)) = S (length (ticks tr'))).
        { inversion Q; subst ls. rewrite ticks_app, app_length. cbn. lia. }
        rewrite E1. split; [lia|]. inversion Q; subst d' its. split; auto. intro MD.
        assert (AL : mdisp D' d = false).
        { destruct (mdisp D' d) eqn:X; auto. change (lift_next (take_op m) D d (mk' n')) with (mstep D' d (Next (mk' n'))) in MD. rewrite (law_dead _ L') in MD; congruence. }
        destruct (R3 AL) as (F & LT). destruct d as [j d]. change (mdisp D d = false) in AL. cbn [fst] in F. subst j.
        change (mdisp D (snd (lift_next (take_op m) D (m - length (ticks tr'), d) (mk' n'))) = false) in MD.
        revert MD. unfold lift_next. cbn [snd fst]. rewrite AL. cbn [op_next take_op].
        destruct (m - length (ticks tr')) as [|[|j]] eqn:MJ; [clear - LT MJ; lia| |].
        * cbn. rewrite (law_term _ L); [discriminate|auto].
        * cbn. intros _. clear - MJ. lia.
      + destruct (mdisp D' d) eqn:MD; inversion Q; subst d' its ls; rewrite app_nil_r; rewrite MD; auto.
    - intros d t0 tr' (X & R1 & R2 & R3). split; [now apply xinv_kill|]. unfold cinv. rewrite ticks_app. cbn [ticks filter is_tick]. rewrite app_nil_r.
      split; auto. split; auto. rewrite (law_kill _ L'). discriminate.
    - split; [now apply xinv_0|]. unfold cinv. cbn. repeat split; auto; lia.
  Qed.
End Take.

(** What take(m) makes of the first n values of an interval. *)
Lemma take_now : forall A (D : machine A), lawful D -> forall m mk d0 n, 0 < m -> n <= m ->
  snd (mrun (lift (take_op m) D) (lift_init (take_op m) D d0) (upto mk n)) =
  mrun D d0 (upto mk n ++ if n =? m then [Done] else []).
Proof.
  intros A D L m mk d0 n M H. rewrite (take_refines A m D L).
  assert (V : vals (upto mk n) = map mk (seq 0 n)). { unfold upto. generalize 0. clear H. induction n; intro i; cbn; f_equal; auto. }
  assert (T : @term_list A A (upto mk n) = []).
  { assert (TN : forall k i, term (map (fun i => Next (mk i)) (seq i k)) = None) by (induction k; intro i; cbn; auto).
    unfold term_list, upto. now rewrite TN. }
  rewrite V, T. unfold take_spec. rewrite map_length, seq_length, Nat.max_r by lia. f_equal.
  destruct (Nat.eqb_spec n m) as [->|NE].
  - rewrite Nat.ltb_irrefl, firstn_all2 by (rewrite map_length, seq_length; lia). unfold upto. now rewrite map_map.
  - replace (n <? m) with true by (symmetry; apply Nat.ltb_lt; lia). unfold upto. now rewrite map_map.
Qed.

Section TakeT.
  Context {A : Type}.
  Lemma take_stop : forall (D : machine A), lawful D -> forall m s mk t p d0 k tr c, 0 < m -> strip s = Interval mk t p ->
    gexec (sstep (lift (take_op m) D)) (src_start (lift (take_op m) D) s (lift_init (take_op m) D d0) k) tr c ->
    (exists n, n <= m /\ ticks tr = map (fun i => LTick (t + Z.of_nat i * p)%Z i) (seq 0 n)) /\
    (existsb is_kill tr = false ->
       let n := length (ticks tr) in snd (fst c) = mrun D d0 (upto mk n ++ if n =? m then [Done] else [])) /\
    (forall a b, tr = a ++ LKill :: b -> existsb is_kill a = false ->
       let n := length (ticks a) in snd (fst c) = mkill D (mrun D d0 (upto mk n ++ if n =? m then [Done] else []))) /\
    (existsb is_kill tr = false -> hd [] (snd c) = [] -> snd (fst c) = mrun D d0 (upto mk m ++ [Done])).
  Proof.
    intros D L m s mk t p d0 k tr c M SI E. pose proof (take_lawful D L m) as L'.
    pose proof (take_ticks D L m s mk t p d0 k tr c M SI E) as TK.
    destruct (interval_now _ L' s mk t p _ k tr c SI E) as (N1 & N2).
    destruct (C55_interval A _ L' s mk t p _ k tr c SI E) as (_ & (n & TN) & _ & FIN).
    assert (LN : length (ticks tr) = n) by (rewrite TN, map_length, seq_length; auto).
    assert (NOW : existsb is_kill tr = false -> snd (fst c) = mrun D d0 (upto mk (length (ticks tr)) ++ if length (ticks tr) =? m then [Done] else [])).
    { intro K. rewrite (N1 K). now apply take_now. }
    split; [exists n; split; auto; lia|]. split; [exact NOW|]. split.
    - intros a b AB KA. cbn zeta. rewrite (N2 a b AB KA). cbn [snd lift mkill]. f_equal. apply take_now; auto.
      rewrite AB in TK. rewrite ticks_app, app_length in TK. lia.
    - intros K H. rewrite (NOW K). specialize (FIN H). cbn [lift mdisp] in FIN. rewrite (NOW K) in FIN.
      destruct (Nat.eqb_spec (length (ticks tr)) m) as [->|NE]; auto. rewrite app_nil_r in *.
      assert (exists r, upto mk m ++ [Done] = upto mk (length (ticks tr)) ++ r) as (r & R).
      { unfold upto. rewrite LN in *. exists (map (fun i => Next (mk i)) (seq n (m - n)) ++ [Done]). rewrite app_assoc. f_equal.
        replace m with (n + (m - n)) at 1 by lia. now rewrite seq_app, map_app. }
      rewrite R, mrun_app. symmetry. apply mrun_dead; auto.
  Qed.
End TakeT.

(** interval | take(m): at most m runs, the n-th due n periods after the first; after n < m runs
    the observer has got the first n values, after m also the completion; disposing it freezes
    what it has; when the source's thread has nothing left to do and nobody disposed the
    observer, it has got everything. *)
Theorem C76_interval_take : forall A (D : machine A), lawful D -> forall m s mk t p d0 k tr c, 0 < m -> strip s = Interval mk t p ->
  gexec (sstep (lift (take_op m) D)) (src_start (lift (take_op m) D) s (lift_init (take_op m) D d0) k) tr c ->
  let had n := map (fun i => Next (mk i)) (seq 0 n) ++ (if n =? m then [Done] else []) in
  (exists n, n <= m /\ ticks tr = map (fun i => LTick (t + Z.of_nat i * p)%Z i) (seq 0 n)) /\
  (existsb is_kill tr = false -> snd (fst c) = mrun D d0 (had (length (ticks tr)))) /\
  (forall a b, tr = a ++ LKill :: b -> existsb is_kill a = false -> snd (fst c) = mkill D (mrun D d0 (had (length (ticks a))))) /\
  (existsb is_kill tr = false -> hd [] (snd c) = [] -> snd (fst c) = mrun D d0 (had m)).
Proof.
  intros A D L m s mk t p d0 k tr c M SI E. destruct (take_stop D L m s mk t p d0 k tr c M SI E) as (H1 & H2 & H3 & H4).
  intro had. subst had. cbn beta. rewrite Nat.eqb_refl. auto.
Qed.
Print Assumptions C76_interval_take.

(** timer(t): rpp/sources/timer.hpp:28-31, 42-45. *)
Definition timer_at {A} (mk : nat -> A) (t : Z) : source A := Interval mk t 0.

(** The observer of timer(t), directly or behind any number of subscribe_on, disposed by any
    number of threads at any moment: there is at most one run, due at t; before it the observer
    has got nothing, from then on 0 and the completion; disposed before, it never gets anything;
    when the timer has nothing left to do and nobody disposed it, it has got both. *)
Theorem C76_timer : forall A (D : machine A), lawful D -> forall s mk t d0 k tr c, strip s = timer_at mk t ->
  gexec (sstep (lift (take_op 1) D)) (src_start (lift (take_op 1) D) s (lift_init (take_op 1) D d0) k) tr c ->
  let full := mrun D d0 [Next (mk 0); Done] in
  (ticks tr = [] \/ ticks tr = [LTick t 0]) /\
  (existsb is_kill tr = false -> snd (fst c) = match ticks tr with [] => d0 | _ => full end) /\
  (forall a b, tr = a ++ LKill :: b -> existsb is_kill a = false -> snd (fst c) = mkill D match ticks a with [] => d0 | _ => full end) /\
  (existsb is_kill tr = false -> hd [] (snd c) = [] -> snd (fst c) = full).
Proof.
  intros A D L s mk t d0 k tr c SI E. destruct (take_stop D L 1 s mk t 0 d0 k tr c (le_n 1) SI E) as ((n & N & H1) & H2 & H3 & H4).
  intro full. subst full. cbn zeta in *. assert (TT : ticks tr = [] \/ ticks tr = [LTick t 0]).
  { destruct n as [|[|n]]; [left; exact H1| |lia]. right. rewrite H1. cbn [seq map]. now rewrite Z.mul_0_r, Z.add_0_r. }
  split; auto. split; [intro K; rewrite (H2 K); destruct TT as [-> | ->]; reflexivity|]. split; auto.
  intros a b AB KA. rewrite (H3 a b AB KA). f_equal. rewrite AB in TT. rewrite ticks_app in TT.
  destruct (ticks a) as [|x l]; auto. destruct l as [|y l]; [reflexivity|]. destruct TT; discriminate.
Qed.
Print Assumptions C76_timer.

Example C76_case : exists tr c,
  gexec (sstep (lift (take_op 1) plain)) (src_start (lift (take_op 1) plain) (SubscribeOn (timer_at (fun n => n) 10)) (lift_init (take_op 1) plain o_init) 1) tr c /\ gfinished c /\
  tr = [LTick 10 0; LKill] /\ o_log (snd (fst c)) = [Next 0; Done].
Proof.
  destruct (grun (sstep (lift (take_op 1) plain)) [0;0;0;0;0;0;1] (src_start (lift (take_op 1) plain) (SubscribeOn (timer_at (fun n => n) 10)) (lift_init (take_op 1) plain o_init) 1)) as [[tr c]|] eqn:R; [|vm_compute in R; discriminate].
  exists tr, c. split; [eapply grun_sound; exact R|]. vm_compute in R. inversion R; subst. split; [intros t [<-|[<-|[]]]; reflexivity|auto].
Qed.
Example C76_disposed_case : exists tr c,
  gexec (sstep (lift (take_op 1) plain)) (src_start (lift (take_op 1) plain) (timer_at (fun n => n) 10) (lift_init (take_op 1) plain o_init) 1) tr c /\ gfinished c /\
  tr = [LKill; LTick 10 0] /\ o_log (snd (fst c)) = [].
Proof.
  destruct (grun (sstep (lift (take_op 1) plain)) [0;0;1;0;0] (src_start (lift (take_op 1) plain) (timer_at (fun n => n) 10) (lift_init (take_op 1) plain o_init) 1)) as [[tr c]|] eqn:R; [|vm_compute in R; discriminate].
  exists tr, c. split; [eapply grun_sound; exact R|]. vm_compute in R. inversion R; subst. split; [intros t [<-|[<-|[]]]; reflexivity|auto].
Qed.
