(** Disposal during the sleep of immediate_scheduling_while_condition (utils.hpp:91-97). *)
From Coq Require Import ZArith Permutation Lia.
From Verif Require Import Base QueueSpec QueueProofs SchedSpec SchedModel SchedProofs SchedOrder SchedAlive.
Open Scope Z_scope.

Section Slept.
  Variable kind : nat -> skind.
  Variable beh : nat -> nat -> list act * sres.
  Variable onerr : nat -> list act.
  Notation tstep := (tstep kind beh onerr).
  Notation sexec := (sexec kind beh onerr).

  Definition NB (tr : list tev) (e : entry) : Prop :=
    forall x t, due tr (e_id e) = Some (KNow, x) -> In (t, EDisp (e_h e)) tr \/ In (t, EEnv (e_h e)) tr -> x <= t.
  Definition slept_item (tr : list tev) (it : item) : Prop :=
    match it with
    | ILoopSleep _ e (LNow d) => d <= 0 -> NB tr e
    | ILoopChk _ e (LNow _) false | ILoopRun _ e (LNow _) => NB tr e
    | _ => True
    end.

  Lemma NB_keep : forall tr c ls e, NB tr e -> (forall x, due tr (e_id e) = Some (KNow, x) -> x <= c) ->
    ~ In (e_id e) (flat_map due_id ls) -> NB (tr ++ map (pair c) ls) e.
  Proof.
    intros tr c ls e N C F x t D H. rewrite due_skip in D by auto.
    rewrite !in_app_iff in H. destruct H as [[H|H]|[H|H]]; try (apply (N x t D); auto; fail);
      apply in_map_iff in H; destruct H as (y & E & _); injection E as <- _; auto.
  Qed.
  Lemma slept_keep : forall tr c ls it, slept_item tr it -> due_item kind tr c it ->
    (forall e, In e (ents it) -> ~ In (e_id e) (flat_map due_id ls)) -> slept_item (tr ++ map (pair c) ls) it.
  Proof.
    assert (X : forall tr (c : Z) e x (P : Z -> Prop), D kind tr e P -> due tr (e_id e) = Some (KNow, x) -> P x).
    { intros tr c e x P (y & A & B) E. rewrite A in E. injection E as E ->. destruct B as [B|(B & _)]; auto. congruence. }
    intros tr c ls it S DI F.
    destruct it as [?|? ?|? ? ?|? ? [?|?|? ?]|? ? [?|?|? ?]|? ? [?|?|? ?] [|]|? ? [?|?|? ?]|? ? ? ?|? ? ?| |?|?|? ?|? ?|?]; cbn in *; auto.
    - intro L. apply NB_keep; auto. intros x E. destruct DI as (_ & DI). apply (X tr c e x _ DI) in E. cbn in E. lia.
    - apply NB_keep; auto. intros x E. destruct DI as (_ & DI). apply (X tr c e x _ DI) in E. cbn in E. lia.
    - apply NB_keep; auto. intros x E. destruct DI as (_ & DI). apply (X tr c e x _ DI) in E. cbn in E. lia.
  Qed.
  Lemma slept_acts : forall tr l, Forall (slept_item tr) (map IAct l).
  Proof. intros. apply Forall_forall. intros i H. apply in_map_iff in H. destruct H as (? & <- & _). exact I. Qed.

  Lemma not_dead_NB : forall tr s stk e, HInv tr s stk -> is_dead s (e_h e) = false -> NB tr e.
  Proof.
    intros tr s stk e (_ & H) N x t _ I. exfalso.
    assert (Z : disposed_before tr (e_h e)) by (exists t; auto). apply H, is_dead_in in Z. congruence.
  Qed.

  Lemma slept_local : forall tr s it rest s' its ls, tstep s it = (s', its, ls) -> slept_item tr it -> HInv tr s (it :: rest) ->
    Forall (slept_item (tr ++ map (pair (s_clock s)) ls)) its.
  Proof.
    intros tr s it rest s' its ls H S HI.
    destruct it as [[[|] ? ? ?|[|] ? ? ?|?|?]|? ?|? ? ?|? ? [?|?|[?|] ?]|? ? [?|?|[?|] ?]|? ? [?|?|? ?] [|]|? ? ?|? ? ? [| |?]|[|] ? [?|]| |?|?|? [| |?]|? ?|[|]];
      split_step H; rewrite ?app_nil_r; cbn in *;
      repeat first [apply Forall_app; split | apply Forall_nil | apply Forall_cons | apply slept_acts | exact I]; cbn; auto.
    - intros _. eapply not_dead_NB; eauto.
    - apply S. apply Z.ltb_ge. assumption.
    - eapply not_dead_NB; eauto.
  Qed.

  Lemma slept_exec : forall t0 prog tr s stk, sexec (s_init t0 prog) tr (s, stk) -> Forall (slept_item tr) stk.
  Proof.
    intros t0 prog tr s stk X. remember (s_init t0 prog) as c0. remember (s, stk) as c. revert s stk Heqc.
    induction X as [c|c tr c1 ls c2 X IH ST]; intros s stk E; subst.
    - unfold s_init in *. injection E as <- <-. apply slept_acts.
    - inversion ST as [s0 it rest s' its ls0 HT Z1 Z2 Z3|s0 stk0 dt Z0 Z1 Z2 Z3|s0 stk0 h Z1 Z2 Z3]; subst.
      + assert (I0 := inv_exec _ _ _ _ _ _ _ _ X). specialize (IH eq_refl s0 (it :: rest) eq_refl).
        destruct (due_exec _ _ _ _ _ _ _ _ X) as [DI _]. assert (HI := h_exec _ _ _ _ _ _ _ _ X).
        destruct (tstep_ids _ _ _ s0 it s its ls0 (shape_head _ _ _ _ (i_shape _ _ _ I0)) HT) as (_ & N & _).
        assert (DD := tstep_due_ids _ _ _ s0 it s its ls0 HT).
        apply Forall_app. split.
        * eapply slept_local; eauto. now apply Forall_inv in IH.
        * apply Forall_forall. intros i R. apply slept_keep.
          -- rewrite Forall_forall in IH. apply IH. now right.
          -- rewrite Forall_forall in DI. apply DI. now right.
          -- intros e HE Z1. destruct (held_item s0 it rest i e R HE (i_nodup _ _ _ I0)) as (A & B & _).
             apply DD in Z1. rewrite in_app_iff in Z1. destruct Z1 as [Z1|Z1]; [|contradiction].
             apply (i_live _ _ _ I0) in A. destruct N as [[E _] | [E _]]; rewrite E in Z1; cbn in Z1; [contradiction|]. lia.
      + rewrite app_nil_r. exact (IH eq_refl s0 stk eq_refl).
      + specialize (IH eq_refl s0 stk eq_refl). destruct (due_exec _ _ _ _ _ _ _ _ X) as [DI _].
        change [(s_clock s0, EEnv h)] with (map (pair (s_clock s0)) [EEnv h]).
        apply Forall_forall. intros i R. rewrite Forall_forall in IH, DI. apply slept_keep; auto.
  Qed.

  (** No task "from now" starts on immediate when its handler was disposed before it was due. *)
  Lemma slept_start : forall t0 prog tr c a t id b x t' h, sexec (s_init t0 prog) tr c -> tr = a ++ (t, EStart IMM id) :: b ->
    due a id = Some (KNow, x) -> handler_of a id h -> In (t', EDisp h) a \/ In (t', EEnv h) a -> x <= t'.
  Proof.
    intros t0 prog tr c a t id b x t' h X E DU HO IN.
    destruct (locate _ _ _ _ _ _ X _ _ _ _ E) as [(tr0 & s & it & rest & s' & its & l1 & l2 & X0 & H & -> & -> & _) | (h' & s & stk & E1 & _)];
      [|discriminate].
    destruct (start_step _ _ _ _ _ _ _ _ _ _ _ H) as (-> & C). cbn [map] in *. rewrite app_nil_r in *.
    destruct C as [(e & l & -> & ->) | (e & _ & W & _)]; [|discriminate].
    assert (SI := slept_exec _ _ _ _ _ X0). apply Forall_inv in SI.
    destruct (due_exec _ _ _ _ _ _ _ _ X0) as [DI _]. apply Forall_inv in DI. cbn in DI. destruct DI as (LK & y & A & _).
    rewrite A in DU. injection DU as K ->.
    destruct (h_exec _ _ _ _ _ _ _ _ X0) as [HH _]. rewrite (HH e h) in IN; auto; [|now left].
    destruct l; cbn in LK; try congruence. cbn in SI. apply (SI x t'); auto. now rewrite A, K.
  Qed.
End Slept.
