(** The subscription of from-sources comes to an end. *)
From Verif Require Import Base SchedSpec SchedModel FairSpec FairModel FairProofs.
Open Scope nat_scope.

Section E.
  Variable lens : list nat.
  Notation k := (length lens).
  Notation need i := (needs (nth i lens 0)).
  Variable onerr : nat -> list act.

  Definition ecost (e : entry) : nat := 5 * (need (e_id e) - e_runs e).
  Definition subcost (i : nat) : nat := 1 + 5 * need i.
  Definition icost (it : item) : nat :=
    match it with
    | IAct (AGuard _) => 3 + list_sum (map subcost (seq 0 k))
    | IAct (ASched _ _ c _) => subcost c
    | IGuardEnd _ => 2
    | IDrain => 1
    | ITopSleep e => ecost e - 1
    | ITopRun e => ecost e - 2
    | ITopRet e (RAgain _) => ecost e - 3
    | ITopRet e _ => 1
    | ITopRes e _ => ecost e + 1
    | _ => 0
    end.
  Definition qcost (s : state) : nat := match s_queue s with Some q => list_sum (map ecost q) | None => 0 end.
  Definition cost (c : config) : nat := list_sum (map icost (snd c)) + qcost (fst c).

  Lemma ls_cons : forall x l, list_sum (x :: l) = x + list_sum l.
  Proof. reflexivity. Qed.
  Lemma qcost_ins : forall e q, list_sum (map ecost (q_ins e q)) = ecost e + list_sum (map ecost q).
  Proof.
    induction q as [|x q IH]; [reflexivity|]. cbn [q_ins]. destruct (e_tp e <? e_tp x)%Z; [reflexivity|].
    cbn [map]. rewrite !ls_cons, IH. lia.
  Qed.
  Lemma ecost_tp : forall e tp, ecost (with_tp e tp) = ecost e.
  Proof. reflexivity. Qed.
  Lemma ls_app : forall a b, list_sum (map icost (a ++ b)) = list_sum (map icost a) + list_sum (map icost b).
  Proof. intros. now rewrite map_app, list_sum_app. Qed.

  Lemma cost_step : forall tr s it rest s' its ls, finv lens tr (s, it :: rest) ->
    tstep fk (from_beh lens) onerr s it = (s', its, ls) -> cost (s', its ++ rest) < cost (s, it :: rest).
  Proof.
    intros tr s it rest s' its ls (ring & P & _ & _) TS. cbn [fst snd] in P. unfold cost. cbn [fst snd map list_sum]. rewrite ls_app.
    change (fold_right plus 0) with list_sum. cbn [map]. change (list_sum (icost it :: map icost rest)) with (icost it + list_sum (map icost rest)).
    remember (it :: rest) as stk. revert Heqstk TS.
    destruct P as [s Q0 N0 R0|s m q LE NX SO RO Z0|s q SO RO|s q e SO EO RO|s q e SO EO RO|s q e SO EO RO|s q e SO EO RO|s q e SO EO RO|s Q0 R0]; intros HS TS.
    - cbn in HS. injection HS as <- <-. cbn [tstep] in TS. rewrite Q0 in TS. injection TS as <- <- <-.
      rewrite ls_app. rewrite !map_map. unfold qcost. rewrite Q0. cbn [s_queue set_queue icost map list_sum fold_right]. 
      change (fun x : nat => subcost x) with subcost. lia.
    - destruct (k - m) as [|n] eqn:KM.
      + cbn in HS. injection HS as <- <-. cbn [tstep] in TS. injection TS as <- <- <-. cbn. lia.
      + cbn in HS. injection HS as <- <-. cbn [tstep fk] in TS. unfold ct_defer in TS. destruct SO as [B1 B2 B3]. cbn [bump s_queue e_h] in TS. rewrite B1 in TS.
        match type of TS with context [is_dead ?a ?b] => destruct (is_dead a b) end.
        * injection TS as <- <- <-. unfold qcost, bump. cbn [s_queue icost map list_sum fold_right]. unfold subcost. rewrite B1. lia.
        * unfold emplace in TS. cbn [do_now bump s_queue] in TS. rewrite B1 in TS. injection TS as <- <- <-. unfold qcost. cbn [set_queue s_queue]. rewrite B1, qcost_ins.
          rewrite ecost_tp. cbn [icost map list_sum fold_right]. unfold subcost, ecost. cbn [e_id e_runs]. rewrite NX. lia.
    - injection HS as <- <-. cbn [tstep] in TS. destruct SO as [B1 B2 B3]. rewrite B1 in TS. destruct q as [|e q].
      + injection TS as <- <- <-. unfold qcost. rewrite B1. cbn. lia.
      + pose proof (Forall_inv (r_runs _ _ _ _ RO)) as (_ & NE). cbn [key fst snd] in NE.
        destruct (is_dead s (e_h e)).
        * injection TS as <- <- <-. unfold qcost. rewrite B1. cbn [set_queue s_queue map]. change (list_sum (ecost e :: map ecost q)) with (ecost e + list_sum (map ecost q)).
          unfold ecost at 2. cbn [icost list_sum fold_right]. lia.
        * injection TS as <- <- <-. unfold qcost. rewrite B1. cbn [set_queue s_queue map]. change (list_sum (ecost e :: map ecost q)) with (ecost e + list_sum (map ecost q)).
          cbn [icost list_sum fold_right]. unfold ecost at 1 3. lia.
    - injection HS as <- <-. cbn [tstep] in TS. destruct SO as [B1 B2 B3]. pose proof (Forall_inv (r_runs _ _ _ _ RO)) as (_ & NE). cbn [key fst snd] in NE.
      destruct (sleep_queue s (e_tp e)) as (Q1 & _ & _). destruct (sleep_until s (e_tp e)) as (s1, b). cbn [fst] in *. injection TS as <- <- <-.
      unfold qcost. rewrite Q1. cbn [icost map list_sum fold_right]. unfold ecost at 1 3. lia.
    - injection HS as <- <-. cbn [tstep from_beh] in TS. injection TS as <- <- <-. pose proof (Forall_inv (r_runs _ _ _ _ RO)) as (_ & NE). cbn [key fst snd] in NE.
      destruct EO as (_ & Ec). unfold from_result. rewrite Ec. destruct (S (e_runs e) <? nth (e_id e) lens 0); cbn [map app icost list_sum fold_right]; unfold ecost; try lia.
    - injection HS as <- <-. cbn [tstep] in TS. injection TS as <- <- <-. cbn [map app icost list_sum fold_right]. lia.
    - injection HS as <- <-. cbn [tstep] in TS. injection TS as <- <- <-.
      pose proof (r_runs _ _ _ _ RO) as F. rewrite map_app in F. apply Forall_app in F. destruct F as (_ & F). pose proof (Forall_inv F) as (_ & NE). cbn [key again e_id e_runs fst snd] in NE.
      cbn [map app icost list_sum fold_right]. unfold ecost. cbn [again e_id e_runs]. lia.
    - injection HS as <- <-. cbn [tstep] in TS. destruct SO as [B1 B2 B3].
      pose proof (r_runs _ _ _ _ RO) as F. rewrite map_app in F. apply Forall_app in F. destruct F as (_ & F). pose proof (Forall_inv F) as (_ & NE). cbn [key fst snd] in NE.
      destruct (is_dead s (e_h e)).
      + injection TS as <- <- <-. cbn [map app icost list_sum fold_right]. lia.
      + unfold queue_empty in TS. rewrite B1 in TS. destruct q as [|x q].
        * cbn [fk] in TS. injection TS as <- <- <-. unfold qcost. cbn [sleep_for set_clock s_queue]. cbn [map app icost list_sum fold_right]. lia.
        * cbn [handle fk] in TS. unfold emplace in TS. cbn [do_now s_queue s_clock] in TS. rewrite B1 in TS. injection TS as <- <- <-.
          unfold qcost. rewrite B1. cbn [set_queue s_queue].
          pose proof (qcost_ins (with_tp e (s_clock s + 0)%Z) (x :: q)) as QE. rewrite ecost_tp in QE. cbn [q_ins with_tp e_tp] in QE. unfold with_tp in QE |- *. rewrite QE.
          cbn [icost map list_sum fold_right]. lia.
    - discriminate.
  Qed.

  Lemma counted_exec : forall c0 n tr c, counted fk (from_beh lens) onerr c0 n tr c -> sexec fk (from_beh lens) onerr c0 tr c.
  Proof.
    intros c0 n tr c H. induction H.
    - constructor.
    - eapply SSnoc; eauto. now constructor.
    - rewrite <- (app_nil_r tr). eapply SSnoc; eauto. now constructor.
    - eapply SSnoc; eauto. constructor.
  Qed.
  Lemma counted_cost : forall t0 n tr c, counted fk (from_beh lens) onerr (s_init t0 (subscribe_all lens)) n tr c ->
    n + cost c <= cost (s_init t0 (subscribe_all lens)).
  Proof.
    intros t0 n tr c H. induction H; auto.
    apply counted_exec, finv_exec in H. pose proof (cost_step _ _ _ _ _ _ _ H H0). lia.
  Qed.
  Theorem ends : forall t0 n tr c, counted fk (from_beh lens) onerr (s_init t0 (subscribe_all lens)) n tr c ->
    n <= 3 + list_sum (map (fun m => 1 + 5 * needs m) lens).
  Proof.
    intros t0 n tr c H. apply counted_cost in H.
    assert (X : forall l a, (forall i, nth i l 0 = nth (a + i) lens 0) -> map subcost (seq a (length l)) = map (fun m => 1 + 5 * needs m) l).
    { induction l as [|x l IH]; intros a E; auto. cbn [length seq map]. f_equal.
      - unfold subcost. specialize (E 0). rewrite Nat.add_0_r in E. now rewrite <- E.
      - apply IH. intro i. specialize (E (S i)). cbn [nth] in E. rewrite E. f_equal. lia. }
    pose proof (X lens 0 (fun i => eq_refl)) as Y.
    unfold cost, s_init, subscribe_all, qcost in H. cbn [fst snd map icost s_queue list_sum fold_right] in H. rewrite Y in H. lia.
  Qed.
End E.
