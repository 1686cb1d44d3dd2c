From Coq Require Import ZArith Permutation Lia.
From Verif Require Import Base QueueSpec QueueProofs SchedSpec SchedModel.
Open Scope Z_scope.

(** ** Identities *)

Definition ents (it : item) : list entry :=
  match it with
  | IDefer e _ | IStart _ e _ | ILoopHead _ e _ | ILoopSleep _ e _ | ILoopChk _ e _ _ | ILoopRun _ e _
  | ILoopRet _ e _ _ | IAfter CT e (Some _) | ITopSleep e | ITopRun e | ITopRet e _ | ITopRes e _ => [e]
  | _ => []
  end.
Definition qents (s : state) : list entry := match s_queue s with Some q => q | None => [] end.
Definition ids (l : list entry) : list nat := map e_id l.
Definition sents (stk : list item) : list entry := flat_map ents stk.

Definition fin_id (e : sev) : list nat :=
  match e with EDrop id | EEnd _ id RStop | EEnd _ id RThrow => [id] | _ => [] end.
Definition call_id (e : sev) : list nat :=
  match e with ECall _ id _ _ _ | ECallTo _ id _ _ _ => [id] | _ => [] end.
Definition all_id (e : sev) : list nat :=
  match e with
  | ECall _ id _ _ _ | ECallTo _ id _ _ _ | ESubmit id _ | EPick id | EDrop id | EStart _ id | EEnd _ id _
  | EErr id _ | EAgain id => [id]
  | _ => []
  end.
Definition evs (tr : list tev) : list sev := map snd tr.

Definition head_ok (s : state) (it : item) : Prop :=
  match it with
  | ILoopHead CT _ (LTo None _) => queue_empty s = true
  | IAfter CT _ _ | ITopRes _ _ => s_queue s <> None
  | _ => True
  end.

Lemma sents_app : forall a b, sents (a ++ b) = sents a ++ sents b.
Proof. intros. unfold sents. apply flat_map_app. Qed.
Lemma sents_acts : forall l, sents (map IAct l) = [].
Proof. induction l; cbn; auto. Qed.
Lemma q_ins_perm : forall e q, Permutation (q_ins e q) (e :: q).
Proof.
  induction q; cbn; auto. destruct (_ <? _); auto.
  rewrite IHq. constructor.
Qed.
Lemma q_ins_ids : forall e q, Permutation (ids (q_ins e q)) (e_id e :: ids q).
Proof. intros. unfold ids. rewrite q_ins_perm. reflexivity. Qed.

  Ltac split_step H :=
    unfold SchedModel.tstep, ct_defer, handle, sleep_until in H;
    repeat match type of H with
      | context [match ?x with _ => _ end] =>
          lazymatch x with context [match _ with _ => _ end] => fail | _ => destruct x eqn:? end;
          cbn [fst snd loop_cond] in H; try discriminate
    end;
    try (injection H as <- <- <-).

  Ltac in_step H HI :=
    split_step H; cbn in HI;
    repeat match type of HI with _ \/ _ => destruct HI as [HI | HI] | False => contradiction HI end; try discriminate;
    try (injection HI; intros; subst).

Section Proofs.
  Variable kind : nat -> skind.
  Variable beh : nat -> nat -> list act * sres.
  Variable onerr : nat -> list act.
  Notation tstep := (tstep kind beh onerr).
  Notation sstep := (sstep kind beh onerr).
  Notation sexec := (sexec kind beh onerr).

  Lemma tstep_ids : forall s it s' its ls, head_ok s it -> tstep s it = (s', its, ls) ->
    Permutation (flat_map call_id ls ++ ids (ents it) ++ ids (qents s))
                (flat_map fin_id ls ++ ids (sents its) ++ ids (qents s')) /\
    (flat_map call_id ls = [] /\ s_next s' = s_next s \/ flat_map call_id ls = [s_next s] /\ s_next s' = S (s_next s)) /\
    incl (flat_map all_id ls) (flat_map call_id ls ++ ids (ents it) ++ ids (qents s)).
  Proof.
    intros s it s' its ls HO H.
    destruct it as [[[|] ? ? ?|[|] ? ? ?|?|?]|? ?|[|] ? ?|[|] ? [?|?|[?|] ?]|[|] ? [?|?|[?|] ?]|[|] ? ? [|]|[|] ? ?|[|] ? ? [| |?]|[|] ? [?|]| |?|?|? [| |?]|? ?|[|]];
    split_step H.
    all: destruct (s_queue s) eqn:HQ; cbn in *; try congruence; try discriminate.
    all: unfold qents, ids, emplace, bump, do_now, set_queue, set_clock, sleep_for in *; cbn in *;
         repeat match goal with H : s_queue _ = _ |- _ => cbn in H; rewrite ?H in * end; cbn in *;
         rewrite ?sents_app, ?sents_acts, ?map_app; cbn;
         rewrite ?app_nil_r, ?sents_acts; cbn.
    all: repeat match goal with H : Some _ = Some _ |- _ => injection H as H; try subst | H : (_ :: _) = _ |- _ => subst end; cbn.
    all: split; [first [reflexivity | symmetry; eapply perm_trans; [apply q_ins_ids | reflexivity]] | split; [auto | intros ?; cbn; tauto]].
  Qed.

  (** ** Shape of the control stack *)

  Definition free0 (it : item) : Prop :=
    match it with
    | IAct _ | IStart IMM _ _ | ILoopHead IMM _ _ | ILoopSleep IMM _ _ | ILoopChk IMM _ _ _ | ILoopRun IMM _ _
    | ILoopRet IMM _ _ _ | IAfter IMM _ _ => True
    | _ => False
    end.
  Definition free1 (it : item) : Prop := free0 it \/ it = IGuardEnd false.

  Definition Mid (tr : list tev) (s : state) (pre mid : list item) : Prop :=
    match mid with
    | [IDrain] | [IGuardEnd true] | [IAfter CT _ None] => running tr = None
    | [ILoopRet CT e _ _] | [ITopRet e _; IDrain] => running tr = Some (e_id e)
    | [IStart CT _ _] | [ILoopSleep CT _ _] | [ILoopChk CT _ _ _] | [ILoopRun CT _ _]
    | [ILoopHead CT _ (LTo None _)] => pre = [] /\ running tr = None /\ s_queue s = Some []
    | [ILoopHead CT _ _] | [IAfter CT _ (Some _)] | [ITopRes _ _; IDrain] => pre = [] /\ running tr = None
    | [ITopSleep e; IDrain] => pre = [] /\ running tr = None /\ picked tr = Some (e_id e)
    | [ITopRun e; IDrain] => pre = [] /\ running tr = None /\ (picked tr = Some (e_id e) \/ s_queue s = Some [])
    | _ => False
    end.

  Definition Shape (tr : list tev) (s : state) (stk : list item) : Prop :=
    match s_queue s with
    | None => running tr = None /\ (Forall free0 stk \/ exists e d rest, stk = IDefer e d :: rest /\ Forall free0 rest)
    | Some _ => exists pre mid post, stk = pre ++ mid ++ post /\ Forall free1 pre /\ Forall free0 post /\ Mid tr s pre mid
    end.

  Lemma Mid_pre : forall tr s pre mid i tr' s' pre', Mid tr s (i :: pre) mid -> running tr' = running tr -> Mid tr' s' pre' mid.
  Proof.
    intros tr s pre mid i tr' s' pre' H E. unfold Mid in *. rewrite E.
    repeat match type of H with
      | match ?x with _ => _ end => destruct x; try contradiction; try exact H
      | _ /\ _ => destruct H as [H _]; discriminate
    end.
  Qed.

  Lemma running_app : forall tr ls, running (tr ++ ls) = fold_left running1 ls (running tr).
  Proof. intros. unfold running. now rewrite fold_left_app. Qed.
  Lemma picked_app : forall tr ls, picked (tr ++ ls) = fold_left picked1 ls (picked tr).
  Proof. intros. unfold picked. now rewrite fold_left_app. Qed.

  Lemma acts_free0 : forall l, Forall free0 (map IAct l).
  Proof. induction l; cbn; constructor; cbn; auto. Qed.
  Lemma acts_free1 : forall l, Forall free1 (map IAct l).
  Proof. induction l; cbn; constructor; cbn; auto. left; exact I. Qed.

  Lemma step_free1 : forall tr s it s' its ls, free1 it -> s_queue s <> None -> tstep s it = (s', its, ls) ->
    s_queue s' <> None /\ Forall free1 its /\ running (tr ++ map (pair (s_clock s)) ls) = running tr.
  Proof.
    intros tr s it s' its ls HF HN H. rewrite running_app.
    destruct HF as [HF | ->]; [|cbn in H; injection H as <- <- <-; cbn; auto].
    destruct it as [[[|] ? ? ?|[|] ? ? ?|?|?]|? ?|[|] ? ?|[|] ? [?|?|[?|] ?]|[|] ? [?|?|[?|] ?]|[|] ? ? [|]|[|] ? ?|[|] ? ? [| |?]|[|] ? [?|]| |?|?|? [| |?]|? ?|[|]];
      cbn in HF; try contradiction; split_step H.
    all: destruct (s_queue s) eqn:HQ; cbn in *; try congruence; try discriminate.
    all: unfold emplace, bump, do_now, set_queue, set_clock, sleep_for in *; cbn in *;
         repeat match goal with H : s_queue _ = _ |- _ => cbn in H; rewrite ?H in * end; cbn in *; try congruence.
    all: split; [try discriminate; try congruence | split; [|reflexivity]].
    all: repeat first [apply Forall_app; split | apply acts_free1 | apply Forall_nil | apply Forall_cons];
         try (left; exact I); try (right; reflexivity).
  Qed.

  Lemma step_free0 : forall tr s it s' its ls, free0 it -> s_queue s = None -> tstep s it = (s', its, ls) ->
    running (tr ++ map (pair (s_clock s)) ls) = running tr /\
    (s_queue s' = None /\ (Forall free0 its \/ exists e d, its = [IDefer e d]) \/
     s_queue s' = Some [] /\ ((exists e d, its = [IStart CT e d]) \/ exists l, its = map IAct l ++ [IGuardEnd true])).
  Proof.
    intros tr s it s' its ls HF HN H. rewrite running_app.
    destruct it as [[[|] ? ? ?|[|] ? ? ?|?|?]|? ?|[|] ? ?|[|] ? [?|?|[?|] ?]|[|] ? [?|?|[?|] ?]|[|] ? ? [|]|[|] ? ?|[|] ? ? [| |?]|[|] ? [?|]| |?|?|? [| |?]|? ?|[|]];
      cbn in HF; try contradiction; split_step H.
    all: cbn in *; try congruence.
    all: split; [reflexivity|].
    all: unfold emplace, bump, do_now, set_queue, set_clock, sleep_for in *; cbn in *.
    all: try (left; split; [assumption|]; solve [left; repeat first [apply Forall_app; split | apply acts_free0 | constructor]; exact I | right; eauto]).
    all: right; split; [reflexivity|]; eauto.
  Qed.

  Lemma shape_run : forall tr s it rest s' its ls, Shape tr s (it :: rest) -> tstep s it = (s', its, ls) ->
    Shape (tr ++ map (pair (s_clock s)) ls) s' (its ++ rest).
  Proof.
    intros tr s it rest s' its ls HS H. unfold Shape in HS. destruct (s_queue s) as [q|] eqn:HQ.
    - destruct HS as (pre & mid & post & E & HP & HO & HM). destruct pre as [|i pre].
      + cbn in E. clear HP. destruct mid as [|i mid]; [contradiction HM|]. cbn in E. injection E as -> ->.
        destruct i as [?|? ?|[|] ? ?|[|] ? [?|?|[?|] ?]|[|] ? [?|?|[?|] ?]|[|] ? ? [|]|[|] ? ?|[|] ? ? [| |?]|[|] ? [?|]| |?|?|? [| |?]|? ?|[|]];
          cbn in HM; try contradiction;
          (destruct mid as [|m2 mid]; [|try contradiction]);
          try contradiction; try (destruct m2; try contradiction; destruct mid; try contradiction);
          repeat match goal with H : _ /\ _ |- _ => destruct H end;
          split_step H.
        all: repeat match goal with X : s_queue ?y = ?a, Y : s_queue ?y = ?b |- _ => assert (a = b) by congruence; clear Y end.
        all: unfold Shape, emplace, bump, do_now, set_queue, set_clock, sleep_for in *; cbn in *; try congruence; try discriminate.
        all: rewrite ?HQ in *; cbn in *.
        all: try (exists [], [IDrain], post; cbn; rewrite running_app; cbn; auto; fail).
        all: try match goal with
          | |- exists pre mid post0, ?x :: IDrain :: ?post = _ /\ _ => exists [], [x; IDrain], post
          | |- exists pre mid post0, (map IAct ?l ++ [?x]) ++ IDrain :: ?post = _ /\ _ => exists (map IAct l), [x; IDrain], post
          | |- exists pre mid post0, map IAct ?l ++ IDrain :: ?post = _ /\ _ => exists (map IAct l), [IDrain], post
          | |- exists pre mid post0, (map IAct ?l ++ [?x]) ++ ?post = _ /\ _ => exists (map IAct l), [x], post
          | |- exists pre mid post0, ?x :: ?post = _ /\ _ => exists [], [x], post
          end;
          (split; [rewrite <- ?app_assoc, ?running_app; cbn; auto|]);
          try (split; [first [apply acts_free1 | constructor]|]; split; [auto|]);
          unfold Mid, queue_empty in *; try rewrite running_app; try rewrite picked_app; cbn; rewrite ?HQ in *; cbn; auto.
        all: try (destruct q; try discriminate; auto; fail).
        all: repeat split; auto; try (destruct q; congruence).
      + cbn in E. injection E as -> ->. pose proof (Forall_inv HP) as H1. pose proof (Forall_inv_tail HP) as H2.
        destruct (step_free1 tr s i s' its ls H1 ltac:(congruence) H) as (A & B & C).
        unfold Shape. destruct (s_queue s') eqn:Q'; [|congruence].
        exists (its ++ pre), mid, post. split; [now rewrite <- !app_assoc|]. split; [apply Forall_app; auto|].
        split; auto. eapply Mid_pre; eauto.
    - destruct HS as [HR [HF | (e & d & rest' & E & HF)]].
      + destruct (step_free0 tr s it s' its ls (Forall_inv HF) HQ H) as (A & [(B & C) | (B & C)]);
          unfold Shape; rewrite B.
        * split; [exact (eq_trans A HR)|]. destruct C as [C | (e & d & ->)].
          -- left. apply Forall_app. split; auto. eapply Forall_inv_tail; eauto.
          -- right. exists e, d, rest. split; auto. eapply Forall_inv_tail; eauto.
        * destruct C as [(e & d & ->) | (l & ->)].
          -- exists [], [IStart CT e d], rest. split; [reflexivity|]. split; [constructor|].
             split; [eapply Forall_inv_tail; eauto|]. cbn. rewrite B. repeat split; auto. exact (eq_trans A HR).
          -- exists (map IAct l), [IGuardEnd true], rest. split; [now rewrite <- app_assoc|]. split; [apply acts_free1|].
             split; [eapply Forall_inv_tail; eauto|]. cbn. exact (eq_trans A HR).
      + injection E as -> ->. cbn in H. unfold ct_defer in H. rewrite HQ in H.
        destruct (is_dead s (e_h e)); injection H as <- <- <-; unfold Shape; cbn.
        * rewrite HQ, running_app. cbn. auto.
        * exists [], [IStart CT e d], rest'. rewrite app_nil_r. cbn. repeat split; auto.
  Qed.

  Lemma shape_head : forall tr s it rest, Shape tr s (it :: rest) -> head_ok s it.
  Proof.
    intros tr s it rest H. unfold Shape in H.
    assert (D : (match it with ILoopHead CT _ (LTo None _) | IAfter CT _ _ | ITopRes _ _ => True | _ => False end) -> head_ok s it).
    { intros D. destruct (s_queue s) as [q|] eqn:HQ.
      - destruct H as (pre & mid & post & E & HP & _ & HM). destruct pre as [|i pre].
        + destruct mid as [|m mid]; [contradiction HM|]. cbn in E. injection E as -> _.
          destruct m as [?|? ?|[|] ? ?|[|] ? [?|?|[?|] ?]|? ? ?|? ? ? ?|? ? ?|? ? ? ?|[|] ? ?| |?|?|? ?|? ?|?]; try contradiction; cbn; try congruence.
          cbn in HM. destruct mid; [|contradiction]. unfold queue_empty. destruct HM as (_ & _ & ->). reflexivity.
        + cbn in E. injection E as -> _. apply Forall_inv in HP. destruct HP as [HP | ->]; [|contradiction].
          destruct i as [?|? ?|[|] ? ?|[|] ? [?|?|[?|] ?]|? ? ?|? ? ? ?|? ? ?|? ? ? ?|[|] ? ?| |?|?|? ?|? ?|?]; contradiction.
      - destruct H as [_ [HF | (e & d & r & E & HF)]].
        + apply Forall_inv in HF.
          destruct it as [?|? ?|[|] ? ?|[|] ? [?|?|[?|] ?]|? ? ?|? ? ? ?|? ? ?|? ? ? ?|[|] ? ?| |?|?|? ?|? ?|?]; contradiction.
        + injection E as -> _. contradiction. }
    destruct it as [?|? ?|[|] ? ?|[|] ? [?|?|[?|] ?]|? ? ?|? ? ? ?|? ? ?|? ? ? ?|[|] ? ?| |?|?|? ?|? ?|?]; auto; exact I.
  Qed.

  (** ** The identity invariant *)

  Definition fins (tr : list tev) : list nat := flat_map fin_id (evs tr).
  Definition alls (tr : list tev) : list nat := flat_map all_id (evs tr).
  Definition held (s : state) (stk : list item) : list nat := ids (sents stk) ++ ids (qents s).

  Record Inv (tr : list tev) (s : state) (stk : list item) : Prop := {
    i_time : s_last s <= s_clock s;
    i_shape : Shape tr s stk;
    i_nodup : NoDup (held s stk);
    i_live : forall id, In id (held s stk) -> (id < s_next s)%nat /\ ~ In id (fins tr);
    i_all : forall id, (id < s_next s)%nat -> In id (held s stk) \/ In id (fins tr);
    i_old : forall id, In id (alls tr) -> (id < s_next s)%nat
  }.

  Lemma fin_in_all : forall tr id, In id (fins tr) -> In id (alls tr).
  Proof.
    intros tr id H. unfold fins, alls in *. apply in_flat_map in H. apply in_flat_map. destruct H as (e & H1 & H2).
    exists e. split; auto. destruct e as [| | | | | |? ? [| |]| | | |]; cbn in *; tauto.
  Qed.
  Lemma fins_app : forall tr c ls, fins (tr ++ map (pair c) ls) = fins tr ++ flat_map fin_id ls.
  Proof. intros. unfold fins, evs. rewrite map_app, flat_map_app, map_map. cbn. now rewrite map_id. Qed.
  Lemma alls_app : forall tr c ls, alls (tr ++ map (pair c) ls) = alls tr ++ flat_map all_id ls.
  Proof. intros. unfold alls, evs. rewrite map_app, flat_map_app, map_map. cbn. now rewrite map_id. Qed.

  Lemma tstep_time : forall s it s' its ls, tstep s it = (s', its, ls) -> s_last s <= s_clock s ->
    s_last s' <= s_clock s' /\ s_clock s <= s_clock s'.
  Proof.
    intros s it s' its ls H L.
    destruct it as [[[|] ? ? ?|[|] ? ? ?|?|?]|? ?|[|] ? ?|[|] ? [?|?|[?|] ?]|[|] ? [?|?|[?|] ?]|[|] ? ? [|]|[|] ? ?|[|] ? ? [| |?]|[|] ? [?|]| |?|?|? [| |?]|? ?|[|]];
      split_step H.
    all: unfold emplace, bump, do_now, set_queue, set_clock, sleep_for in *; cbn in *;
      try destruct (s_queue s); cbn in *; lia.
  Qed.

  Lemma held_perm : forall s it rest s' its ls, head_ok s it -> tstep s it = (s', its, ls) ->
    Permutation (flat_map call_id ls ++ held s (it :: rest)) (flat_map fin_id ls ++ held s' (its ++ rest)).
  Proof.
    intros s it rest s' its ls HO H. destruct (tstep_ids s it s' its ls HO H) as (P & _).
    unfold held. rewrite sents_app. cbn. unfold ids in *. rewrite !map_app.
    transitivity ((flat_map call_id ls ++ map e_id (ents it) ++ map e_id (qents s)) ++ map e_id (sents rest)).
    - rewrite <- !app_assoc. apply Permutation_app_head, Permutation_app_head, Permutation_app_comm.
    - rewrite P. rewrite <- !app_assoc. apply Permutation_app_head, Permutation_app_head, Permutation_app_comm.
  Qed.

  Lemma nodup_app_r : forall (A : Type) (a b : list A), NoDup (a ++ b) -> NoDup b.
  Proof. induction a; cbn; auto. intros b H. inversion H; auto. Qed.
  Lemma nodup_app_no : forall (A : Type) (a b : list A) x, NoDup (a ++ b) -> In x a -> ~ In x b.
  Proof.
    induction a; cbn; intros b x H HI; [contradiction|]. inversion H; subst. destruct HI as [-> | HI]; eauto.
    intros HB. apply H2. apply in_or_app; auto.
  Qed.

  Lemma inv_run : forall tr s it rest s' its ls, Inv tr s (it :: rest) -> tstep s it = (s', its, ls) ->
    Inv (tr ++ map (pair (s_clock s)) ls) s' (its ++ rest).
  Proof.
    intros tr s it rest s' its ls I0 H.
    assert (HO := shape_head _ _ _ _ (i_shape _ _ _ I0)).
    destruct (tstep_ids s it s' its ls HO H) as (_ & N & A). assert (P := held_perm s it rest s' its ls HO H).
    assert (ND : NoDup (flat_map call_id ls ++ held s (it :: rest))).
    { destruct N as [[-> _] | [-> _]]; cbn; [apply (i_nodup _ _ _ I0)|]. constructor; [|apply (i_nodup _ _ _ I0)].
      intros X. apply (i_live _ _ _ I0) in X. lia. }
    assert (ND' : NoDup (flat_map fin_id ls ++ held s' (its ++ rest))) by (eapply Permutation_NoDup; eauto).
    constructor.
    - apply (tstep_time s it s' its ls H (i_time _ _ _ I0)).
    - eapply shape_run; eauto. apply (i_shape _ _ _ I0).
    - eapply nodup_app_r; eauto.
    - intros id X. assert (Y : In id (flat_map call_id ls ++ held s (it :: rest))).
      { eapply Permutation_in; [symmetry; exact P|]. apply in_or_app; auto. }
      rewrite fins_app, in_app_iff.
      assert (Z1 : ~ In id (flat_map fin_id ls)) by (intros W; eapply nodup_app_no; eauto).
      apply in_app_or in Y. destruct Y as [Y | Y].
      + destruct N as [[E _] | [E E2]]; rewrite E in Y; cbn in Y; [contradiction|]. destruct Y as [<- | []].
        split; [lia|]. intros [W | W]; [|contradiction]. apply fin_in_all, (i_old _ _ _ I0) in W. lia.
      + apply (i_live _ _ _ I0) in Y. split; [destruct N as [[_ ->] | [_ ->]]; lia|]. tauto.
    - intros id X. rewrite fins_app, in_app_iff.
      assert (Y : In id (flat_map call_id ls ++ held s (it :: rest)) \/ In id (fins tr)).
      { destruct N as [[E E2] | [E E2]]; rewrite E2 in X; rewrite E; cbn.
        - apply (i_all _ _ _ I0) in X. tauto.
        - assert (id = s_next s \/ (id < s_next s)%nat) as [-> | L] by lia; [auto|]. apply (i_all _ _ _ I0) in L. tauto. }
      destruct Y as [Y | Y]; [|auto]. eapply Permutation_in in Y; [|exact P]. apply in_app_or in Y. tauto.
    - intros id X. rewrite alls_app in X. apply in_app_or in X. destruct X as [X | X].
      + apply (i_old _ _ _ I0) in X. destruct N as [[_ ->] | [_ ->]]; lia.
      + apply A in X. rewrite in_app_iff in X. destruct X as [X | X].
        * destruct N as [[E _] | [E E2]]; rewrite E in X; cbn in X; [contradiction|]. destruct X as [<- | []]. lia.
        * assert (Y : In id (held s (it :: rest))).
          { unfold held. cbn. unfold ids in *. rewrite map_app. rewrite !in_app_iff in *. tauto. }
          apply (i_live _ _ _ I0) in Y. destruct N as [[_ ->] | [_ ->]]; lia.
  Qed.

  Lemma inv_exec : forall t0 prog tr s stk, sexec (s_init t0 prog) tr (s, stk) -> Inv tr s stk.
  Proof.
    intros t0 prog tr s stk X. remember (s_init t0 prog) as c0. remember (s, stk) as c. revert s stk Heqc.
    induction X as [c|c tr c1 ls c2 X IH ST]; intros s stk E; subst.
    - unfold s_init in *. injection E as <- <-. constructor; cbn; try lia.
      + unfold Shape. cbn. split; auto. left. apply acts_free0.
      + unfold held. rewrite sents_acts. constructor.
      + unfold held. rewrite sents_acts. cbn. contradiction.
    - inversion ST; subst.
      + eapply inv_run; eauto.
      + rewrite app_nil_r. destruct (IH eq_refl s0 stk eq_refl). constructor; auto. cbn. lia.
      + destruct (IH eq_refl s0 stk eq_refl). change [(s_clock s0, EEnv h)] with (map (pair (s_clock s0)) [EEnv h]).
        constructor; auto.
        * unfold Shape in *. cbn. destruct (s_queue s0) eqn:HQ.
          -- destruct i_shape0 as (pre & mid & post & A & B & C & D). exists pre, mid, post. repeat split; auto.
             unfold Mid in *. rewrite running_app, picked_app. cbn. rewrite HQ in *. exact D.
          -- rewrite running_app. exact i_shape0.
        * intros id W. rewrite fins_app. cbn. rewrite app_nil_r. apply (i_live0 id W).
        * intros id W. rewrite fins_app. cbn. rewrite app_nil_r. apply (i_all0 id W).
        * intros id W. rewrite alls_app in W. cbn in W. rewrite app_nil_r in W. apply (i_old0 id W).
  Qed.

  (** ** Locating an event *)

  Lemma app_split : forall (A : Type) (p q a b : list A) x, p ++ q = a ++ x :: b ->
    (exists b', p = a ++ x :: b' /\ b = b' ++ q) \/ (exists l, a = p ++ l /\ q = l ++ x :: b).
  Proof.
    induction p as [|y p IH]; intros q a b x E; cbn in E.
    - right. exists a. auto.
    - destruct a as [|z a]; cbn in E; injection E as -> E.
      + left. exists p. auto.
      + destruct (IH _ _ _ _ E) as [(b' & -> & ->) | (l & -> & ->)]; [left; exists b'; auto | right; exists l; auto].
  Qed.

  Lemma map_pair_split : forall (c : Z) (ls : list sev) a t ev b, map (pair c) ls = a ++ (t, ev) :: b ->
    exists l1 l2, ls = l1 ++ ev :: l2 /\ a = map (pair c) l1 /\ t = c.
  Proof.
    induction ls as [|x ls IH]; intros a t ev b E; [destruct a; discriminate|].
    destruct a as [|y a]; cbn in E.
    - injection E as E1 E2 E3. exists [], ls. subst. auto.
    - injection E as E1 E2. destruct (IH _ _ _ _ E2) as (l1 & l2 & -> & -> & ->). exists (x :: l1), l2. subst. auto.
  Qed.

  Lemma locate : forall c0 tr c, sexec c0 tr c -> forall a t ev b, tr = a ++ (t, ev) :: b ->
    (exists tr0 s it rest s' its l1 l2, sexec c0 tr0 (s, it :: rest) /\ tstep s it = (s', its, l1 ++ ev :: l2) /\
       a = tr0 ++ map (pair (s_clock s)) l1 /\ t = s_clock s /\ exists b', b = map (pair (s_clock s)) l2 ++ b') \/
    (exists h s stk, ev = EEnv h /\ sexec c0 a (s, stk)).
  Proof.
    intros c0 tr c X. induction X as [c|c tr c1 ls c2 X IH ST]; intros a t ev b E.
    - destruct a; discriminate.
    - destruct (app_split _ _ _ _ _ _ E) as [(b' & E1 & E2) | (l & -> & E1)].
      { destruct (IH _ _ _ _ E1) as [(tr0 & s & it & rest & s' & its & l1 & l2 & A & B & C & D & b2 & F) | X2]; [left|right; exact X2].
        exists tr0, s, it, rest, s', its, l1, l2. repeat split; auto. exists (b2 ++ ls). rewrite E2, F. now rewrite <- app_assoc. }
      clear E IH. revert E1. inversion ST; subst; intros E1.
      + left. destruct (map_pair_split _ _ _ _ _ _ E1) as (l1 & l2 & -> & -> & ->).
        exists tr, s, it, rest, s', its, l1, l2. repeat split; auto.
        exists []. rewrite map_app in E1. cbn in E1. apply app_inv_head in E1. injection E1 as <-. now rewrite app_nil_r.
      + destruct l; discriminate.
      + right. destruct l as [|? [|? ?]]; cbn in E1; try discriminate. injection E1 as <- <- _.
        exists h, s, stk. rewrite app_nil_r. auto.
  Qed.

  (** ** Due times *)

  Definition due_id (e : sev) : list nat :=
    match e with ECall _ id _ _ _ | ECallTo _ id _ _ _ | EEnd _ id _ => [id] | _ => [] end.

  Lemma due_app : forall tr ls id, due (tr ++ ls) id = fold_left (due1 id) ls (due tr id).
  Proof. intros. unfold due. now rewrite fold_left_app. Qed.
  Lemma due_skip : forall c id ls tr, ~ In id (flat_map due_id ls) -> due (tr ++ map (pair c) ls) id = due tr id.
  Proof.
    intros c id ls tr. rewrite due_app. generalize (due tr id). induction ls as [|e ls IH]; intros o H; cbn; auto.
    cbn in H. rewrite in_app_iff in H. rewrite IH by tauto.
    destruct e as [? i|? i|? ?|?|?|? ?|? i [| |]|? ?|?|?|?]; cbn in *; auto;
      destruct (Nat.eqb_spec i id); auto; tauto.
  Qed.
  Lemma tstep_due_ids : forall s it s' its ls, tstep s it = (s', its, ls) ->
    incl (flat_map due_id ls) (flat_map call_id ls ++ ids (ents it)).
  Proof.
    intros s it s' its ls H.
    destruct it as [[[|] ? ? ?|[|] ? ? ?|?|?]|? ?|[|] ? ?|[|] ? [?|?|[?|] ?]|[|] ? [?|?|[?|] ?]|[|] ? ? [|]|[|] ? ?|[|] ? ? [| |?]|[|] ? [?|]| |?|?|? [| |?]|? ?|[|]];
      split_step H; cbn; intros ? ?; cbn in *; tauto.
  Qed.

  Definition D (tr : list tev) (e : entry) (P : Z -> Prop) : Prop :=
    exists x, due tr (e_id e) = Some (kind (e_code e), x) /\ (P x \/ kind (e_code e) = KThis /\ rerun_in tr (e_id e)).
  Definition lk (l : ldat) : skind := match l with LThis _ => KThis | LNow _ => KNow | LTo _ _ => KTo end.
  Definition ld (c : Z) (l : ldat) (x : Z) : Prop :=
    match l with LThis tp => x <= tp | LNow d => x <= c + d | LTo None d => x <= c + d | LTo (Some tp) _ => x <= tp end.
  Definition lthis (l : ldat) (x : Z) : Prop := match l with LThis tp => x <= tp | _ => True end.
  Definition due_item (tr : list tev) (c : Z) (it : item) : Prop :=
    match it with
    | IDefer e d | IStart _ e d => D tr e (fun x => x <= c + d)
    | ILoopHead _ e l | ILoopSleep _ e l => kind (e_code e) = lk l /\ D tr e (ld c l)
    | ILoopChk _ e l _ | ILoopRun _ e l => kind (e_code e) = lk l /\ D tr e (fun x => x <= c /\ lthis l x)
    | ILoopRet _ e l _ => kind (e_code e) = lk l /\ D tr e (lthis l)
    | IAfter CT e (Some tp) => D tr e (fun x => x <= tp)
    | ITopSleep e => D tr e (fun x => x <= e_tp e)
    | ITopRun e => D tr e (fun x => x <= c /\ (kind (e_code e) = KThis -> x <= e_tp e))
    | ITopRet e _ => D tr e (fun x => kind (e_code e) = KThis -> x <= e_tp e)
    | ITopRes e v => D tr e (fun x => x <= match kind (e_code e) with KNow => c + v | KThis => e_tp e + v | KTo => v end)
    | _ => True
    end.
  Definition due_q (tr : list tev) (e : entry) : Prop := D tr e (fun x => x <= e_tp e).

  Lemma rerun_app : forall tr ls id, rerun_in tr id -> rerun_in (tr ++ ls) id.
  Proof. intros tr ls id (t & H). exists t. apply in_or_app; auto. Qed.

  Lemma D_keep : forall tr c ls e (P P' : Z -> Prop), ~ In (e_id e) (flat_map due_id ls) -> (forall x, P x -> P' x) ->
    D tr e P -> D (tr ++ map (pair c) ls) e P'.
  Proof.
    intros tr c ls e P P' HN HP (x & A & B). exists x. rewrite due_skip by auto. split; auto.
    destruct B as [B | [B C]]; [left; auto | right; split; auto using rerun_app].
  Qed.
  Lemma due_item_keep : forall tr c c' ls it, c <= c' -> (forall e, In e (ents it) -> ~ In (e_id e) (flat_map due_id ls)) ->
    due_item tr c it -> due_item (tr ++ map (pair c) ls) c' it.
  Proof.
    intros tr c c' ls it L HN H.
    destruct it as [?|? ?|[|] ? ?|[|] ? [?|?|[?|] ?]|[|] ? [?|?|[?|] ?]|[|] ? ? ?|[|] ? ?|[|] ? ? [| |?]|[|] ? [?|]| |?|?|? [| |?]|? ?|[|]];
      cbn in *; auto; try match type of H with _ /\ _ => destruct H as [K H]; split; [exact K|] end;
      (eapply D_keep; [apply HN; auto | | exact H]); cbn; intros x; try (destruct (kind _)); try destruct l; cbn; intuition lia.
  Qed.
  Lemma q_ins_in : forall e x q, In x (q_ins e q) <-> x = e \/ In x q.
  Proof.
    intros e x q. split; intros H.
    - eapply Permutation_in in H; [|apply q_ins_perm]. cbn in H. intuition.
    - eapply Permutation_in; [symmetry; apply q_ins_perm|]. cbn. intuition.
  Qed.

  Lemma due_local : forall tr s it s' its ls, tstep s it = (s', its, ls) -> s_last s <= s_clock s ->
    due_item tr (s_clock s) it -> (forall e, In e (qents s) -> due_q tr e) ->
    Forall (due_item (tr ++ map (pair (s_clock s)) ls) (s_clock s')) its /\
    (forall e, In e (qents s') -> In e (qents s) \/ due_q (tr ++ map (pair (s_clock s)) ls) e).
  Proof.
    intros tr s it s' its ls H L HD HQD.
    destruct it as [[[|] ? ? ?|[|] ? ? ?|?|?]|? ?|[|] ? ?|[|] ? [?|?|[?|] ?]|[|] ? [?|?|[?|] ?]|[|] ? ? [|]|[|] ? ?|[|] ? ? [| |?]|[|] ? [?|]| |?|?|? [| |?]|? ?|[|]];
      split_step H.
    all: unfold emplace, bump, do_now, set_queue, set_clock, sleep_for, qents in *; cbn in *.
    all: destruct (s_queue s) eqn:HQ; cbn in *; try discriminate.
    all: repeat match goal with H : Some _ = Some _ |- _ => injection H as H; try subst end.
    all: try match type of HD with _ /\ _ => destruct HD as [HK HD]; cbn in HK; try congruence end.
    all: split; [repeat first [apply Forall_app; split | apply Forall_nil | apply Forall_cons | apply Forall_forall; intros ? ?; exact I | exact I];
                 cbn; try (split; [now rewrite ?HK|])
               | intros ? HI; cbn in HI; rewrite ?HQ in HI; try (now left); try contradiction; try (apply q_ins_in in HI; destruct HI as [-> | HI]; [right|now left]);
                 try (left; now right)].
    all: try (apply Forall_forall; intros ? HI; apply in_map_iff in HI; destruct HI as (? & <- & _); exact I).
    all: try match goal with |- due_q _ _ => unfold due_q end.
    all: first [destruct HD as (x & A & B) | destruct (HQD _ (or_introl eq_refl)) as (x & A & B) | idtac].
    all: cbn in *.
    all: try (destruct (kind (e_code e)) eqn:HKD; try discriminate).
    all: try match goal with H : _ = lk ?l |- _ => destruct l; try discriminate; cbn in * end.
    all: unfold D; cbn [with_tp again e_id e_code e_tp].
    all: eexists; (split; [rewrite due_app; cbn; rewrite ?Nat.eqb_refl, ?A; cbn; try rewrite HKD; reflexivity|]).
    all: repeat match goal with H : (_ <=? _) = false |- _ => apply Z.leb_gt in H | H : (_ <=? _) = true |- _ => apply Z.leb_le in H
                | H : (_ <? _) = true |- _ => apply Z.ltb_lt in H | H : (_ <? _) = false |- _ => apply Z.ltb_ge in H end.
    all: try (left; lia).
    all: try (destruct B as [B | [B1 B2]]; [|first [discriminate | right; split; [assumption | apply rerun_app; assumption]]]).
    all: cbn in *; try (left; intuition (try discriminate; lia)).
    all: right; split; [assumption|]; exists (s_clock s); apply in_or_app; right; left; reflexivity.
  Qed.

  Definition DueInv (tr : list tev) (s : state) (stk : list item) : Prop :=
    Forall (due_item tr (s_clock s)) stk /\ forall e, In e (qents s) -> due_q tr e.

  Lemma held_item : forall s it rest i e, In i rest -> In e (ents i) -> NoDup (held s (it :: rest)) ->
    In (e_id e) (held s (it :: rest)) /\ ~ In (e_id e) (ids (ents it)) /\ ~ In (e_id e) (ids (qents s)).
  Proof.
    intros s it rest i e HI HE ND.
    assert (W : In (e_id e) (ids (sents rest))).
    { unfold ids, sents. apply in_map. apply in_flat_map. eauto. }
    unfold held in *. cbn in *. unfold ids in *. rewrite map_app in *.
    split; [rewrite !in_app_iff; auto|]. rewrite <- app_assoc in ND. split.
    - intros X. eapply nodup_app_no; [exact ND | exact X|]. apply in_or_app; auto.
    - apply nodup_app_r in ND. eapply nodup_app_no; eauto.
  Qed.
  Lemma held_q : forall s it rest e, In e (qents s) -> NoDup (held s (it :: rest)) ->
    In (e_id e) (held s (it :: rest)) /\ ~ In (e_id e) (ids (ents it)).
  Proof.
    intros s it rest e HE ND.
    assert (W : In (e_id e) (ids (qents s))) by (unfold ids; apply in_map; auto).
    unfold held in *. cbn in *. unfold ids in *. rewrite map_app in *.
    split; [rewrite !in_app_iff; auto|]. rewrite <- app_assoc in ND.
    intros X. eapply nodup_app_no; [exact ND | exact X|]. apply in_or_app; auto.
  Qed.

  Lemma due_run : forall tr s it rest s' its ls, Inv tr s (it :: rest) -> DueInv tr s (it :: rest) -> tstep s it = (s', its, ls) ->
    DueInv (tr ++ map (pair (s_clock s)) ls) s' (its ++ rest).
  Proof.
    intros tr s it rest s' its ls I0 [DI DQ] H.
    destruct (tstep_time s it s' its ls H (i_time _ _ _ I0)) as [_ TC].
    destruct (tstep_ids s it s' its ls (shape_head _ _ _ _ (i_shape _ _ _ I0)) H) as (_ & N & _).
    assert (DD := tstep_due_ids s it s' its ls H).
    destruct (due_local tr s it s' its ls H (i_time _ _ _ I0) (Forall_inv DI) DQ) as [L1 L2].
    assert (K : forall id, In id (held s (it :: rest)) -> ~ In id (ids (ents it)) -> ~ In id (flat_map due_id ls)).
    { intros id X Y Z1. apply DD in Z1. rewrite in_app_iff in Z1. destruct Z1 as [Z1 | Z1]; [|contradiction].
      apply (i_live _ _ _ I0) in X. destruct N as [[E _] | [E _]]; rewrite E in Z1; cbn in Z1; [contradiction|]. lia. }
    split.
    - apply Forall_app. split; auto. apply Forall_forall. intros i HI.
      apply due_item_keep; auto.
      + intros e HE. destruct (held_item s it rest i e HI HE (i_nodup _ _ _ I0)) as (A & B & _). auto.
      + eapply Forall_forall in DI; [exact DI|]. right; auto.
    - intros e HE. destruct (L2 e HE) as [L3 | L3]; auto.
      destruct (held_q s it rest e L3 (i_nodup _ _ _ I0)) as (A & B).
      unfold due_q. eapply D_keep; [apply K; auto | | apply DQ; auto]. auto.
  Qed.

  Lemma due_exec : forall t0 prog tr s stk, sexec (s_init t0 prog) tr (s, stk) -> DueInv tr s stk.
  Proof.
    intros t0 prog tr s stk X. remember (s_init t0 prog) as c0. remember (s, stk) as c. revert s stk Heqc.
    induction X as [c|c tr c1 ls c2 X IH ST]; intros s stk E; subst.
    - unfold s_init in *. injection E as <- <-. split; cbn; [|contradiction].
      apply Forall_forall. intros i HI. apply in_map_iff in HI. destruct HI as (? & <- & _). exact I.
    - inversion ST; subst.
      + eapply due_run; eauto. eapply inv_exec; eauto.
      + destruct (IH eq_refl s0 stk eq_refl) as [A B]. split; [|exact (fun e => eq_ind_r (fun tr => In e (qents s0) -> due_q tr e) (B e) (app_nil_r tr))].
        apply Forall_forall. intros i HI. change (@nil tev) with (map (pair (s_clock s0)) (@nil sev)).
        apply due_item_keep; cbn; [lia | auto |]. eapply Forall_forall in A; eauto.
      + destruct (IH eq_refl s0 stk eq_refl) as [A B]. change [(s_clock s0, EEnv h)] with (map (pair (s_clock s0)) [EEnv h]).
        split.
        * apply Forall_forall. intros i HI. apply due_item_keep; cbn; [lia | auto |]. eapply Forall_forall in A; eauto.
        * intros e HE. unfold due_q. eapply D_keep; [cbn; auto | | apply B; auto]. auto.
  Qed.

  (** ** What a step that emits a given event looks like *)

  Lemma single_split : forall (A : Type) (x y : A) l1 l2, [x] = l1 ++ y :: l2 -> l1 = [] /\ l2 = [].
  Proof. intros A x y [|? [|? ?]] l2 E; cbn in E; try discriminate. injection E as _ <-. auto. Qed.

  Lemma start_in : forall s it s' its w id ls, tstep s it = (s', its, ls) -> In (EStart w id) ls ->
    ls = [EStart w id] /\ s' = s /\ ((exists e l, it = ILoopRun w e l /\ id = e_id e) \/ (exists e, it = ITopRun e /\ w = CT /\ id = e_id e)).
  Proof.
    intros s it s' its w id ls H HI.
    destruct it as [[[|] ? ? ?|[|] ? ? ?|?|?]|? ?|? ? ?|? ? [?|?|[?|] ?]|? ? [?|?|[?|] ?]|? ? ? [|]|? ? ?|? ? ? [| |?]|[|] ? [?|]| |?|?|? [| |?]|? ?|[|]];
      in_step H HI; split; [reflexivity | split; [reflexivity|] | reflexivity | split; [reflexivity|]]; eauto.
  Qed.

  Lemma start_step : forall s it s' its l1 w id l2, tstep s it = (s', its, l1 ++ EStart w id :: l2) ->
    l1 = [] /\ ((exists e l, it = ILoopRun w e l /\ id = e_id e) \/ (exists e, it = ITopRun e /\ w = CT /\ id = e_id e)).
  Proof.
    intros s it s' its l1 w id l2 H. destruct (start_in _ _ _ _ w id _ H) as (E & _ & C).
    - apply in_or_app. right. left. reflexivity.
    - split; auto. symmetry in E. apply single_split in E. tauto.
  Qed.

  Lemma start_due : forall t0 prog tr c a t w id b, sexec (s_init t0 prog) tr c -> tr = a ++ (t, EStart w id) :: b ->
    exists k x, due a id = Some (k, x) /\ (x <= t \/ k = KThis /\ rerun_in a id).
  Proof.
    intros t0 prog tr c a t w id b X E.
    destruct (locate _ _ _ X _ _ _ _ E) as [(tr0 & s & it & rest & s' & its & l1 & l2 & X0 & H & -> & -> & _) | (h & s & stk & E1 & _)];
      [|discriminate].
    destruct (start_step _ _ _ _ _ _ _ _ H) as (-> & C). cbn. rewrite app_nil_r.
    destruct (due_exec _ _ _ _ _ X0) as [DI _]. apply Forall_inv in DI.
    destruct C as [(e & l & -> & ->) | (e & -> & -> & ->)]; cbn in DI.
    - destruct DI as (_ & x & A & B). exists (kind (e_code e)), x. split; auto. destruct B as [[B _] | B]; auto.
    - destruct DI as (x & A & B). exists (kind (e_code e)), x. split; auto. destruct B as [[B _] | B]; auto.
  Qed.
End Proofs.
