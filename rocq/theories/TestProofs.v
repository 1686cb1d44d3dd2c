From Coq Require Import ZArith NArith Permutation.
From Verif Require Import Base Concur QueueSpec QueueProofs SchedSpec SchedOrder LoopSpec LoopBase LoopAbs TestModel.
Open Scope Z_scope.

Lemma dead_in : forall d t, dead d t = true <-> In (t_h t) d.
Proof.
  intros. unfold dead. rewrite existsb_exists. split.
  - intros (x & I & E). apply Nat.eqb_eq in E. congruence.
  - intro I. exists (t_h t). split; auto. apply Nat.eqb_refl.
Qed.
Lemma dead_not : forall d t, dead d t = false <-> ~ In (t_h t) d.
Proof. intros. rewrite <- dead_in. now destruct (dead d t). Qed.

Section Test.
  Variable kind : nat -> skind.
  Variable beh : nat -> nat -> list xact * sres.
  Variable onerr : nat -> list xact.
  Notation xstep := (xstep kind beh onerr).
  Notation xexec := (gexec xstep).

  Definition x_hand (it : xitem) : list hand :=
    match it with XRun t => [HPicked t] | XRet t _ => [HRun t] | XAgain t _ => [HRes t] | _ => [] end.
  Definition x_abs (s : xstate) (l : list xitem) : astate :=
    AState (x_now s) (x_queue s) (flat_map x_hand l) (x_dead s) (x_next s) false.
  Definition this_ok (t : task) : Prop := t_due t <= t_tp t.
  Definition x_ok1 (it : xitem) : Prop :=
    match it with XRun t => this_ok t | XRet t _ => this_ok t | XAgain t tp => t_due t <= tp | _ => True end.
  Definition x_ok (s : xstate) (l : list xitem) : Prop := Forall this_ok (x_queue s) /\ Forall x_ok1 l.

  Lemma acts_hand : forall acts, flat_map x_hand (map XAct acts) = [].
  Proof. induction acts; auto. Qed.
  Lemma acts_ok : forall acts, Forall x_ok1 (map XAct acts).
  Proof. induction acts; constructor; cbn; auto. Qed.
  Lemma ins_ok : forall (P : task -> Prop) t q, P t -> Forall P q -> Forall P (t_ins t q).
  Proof. intros P t q A B. rewrite Forall_forall in *. intros x I. apply t_ins_in in I. destruct I; subst; auto. Qed.

  Lemma x_sim : forall s l1 it l2 s' its ls, x_ok s (l1 ++ it :: l2) -> xstep s it = Some (s', its, ls) ->
    x_ok s' (l1 ++ its ++ l2) /\ aexec (x_abs s (l1 ++ it :: l2)) ls (x_abs s' (l1 ++ its ++ l2)).
  Proof.
    intros s l1 it l2 s' its ls [OQ OL] E. apply Forall_app in OL. destruct OL as [O1 O2]. inversion O2 as [|? ? OI O3]; subst.
    assert (OK : forall q d n now its, Forall this_ok q -> Forall x_ok1 its -> x_ok (XState now q d n) (l1 ++ its ++ l2)).
    { intros. split; auto. rewrite !Forall_app. auto. }
    unfold x_abs. rewrite !flat_map_app. cbn [flat_map]. destruct s as [now q d n]. cbn [x_now x_queue x_dead x_next] in *.
    destruct it as [[dd code h|dd|h]| |t|t r|t tp]; cbn [xstep x_now x_queue x_dead x_next] in E.
    - injection E as <- <- <-. split; [apply OK; [apply ins_ok; unfold this_ok; cbn; auto; lia | repeat constructor]|].
      cbn. apply aexec_one. constructor.
    - injection E as <- <- <-. split; [apply OK; auto; repeat constructor|]. cbn.
      change [(now, LAdv (Z.of_N dd))] with ([(now, LAdv (Z.of_N dd))] ++ []). econstructor; [apply aexec_one; apply A_misc; exact I|].
      constructor. lia.
    - injection E as <- <- <-. split; [apply OK; auto|]. cbn. apply aexec_one. constructor.
    - destruct q as [|t q].
      + injection E as <- <- <-. split; [apply OK; auto | constructor].
      + inversion OQ; subst. destruct (Z.ltb_spec now (t_tp t)).
        * injection E as <- <- <-. split; [apply OK; auto | constructor].
        * destruct (dead d t) eqn:D; injection E as <- <- <-.
          -- split; [apply OK; auto; repeat constructor|]. cbn. apply aexec_one. constructor. now apply dead_in.
          -- split; [apply OK; auto; repeat constructor; auto|]. cbn. apply aexec_one. constructor; [now apply dead_not | lia].
    - destruct (beh (t_code t) (t_runs t)) as [acts r]. injection E as <- <- <-.
      split; [apply OK; auto; apply Forall_app; split; [apply acts_ok | repeat constructor; exact OI]|].
      cbn. rewrite flat_map_app, acts_hand. cbn. apply aexec_one. constructor.
    - destruct r as [| |v]; injection E as <- <- <-.
      + split; [apply OK; auto|]. cbn. apply aexec_one. constructor.
      + split; [apply OK; auto; apply acts_ok|]. rewrite acts_hand. cbn.
        change [(now, LEnd (t_id t) RThrow); (now, LErr (t_id t) (t_h t))] with ([(now, LEnd (t_id t) RThrow)] ++ [(now, LErr (t_id t) (t_h t))]).
        econstructor; [apply aexec_one; constructor | constructor].
      + split; [apply OK; auto; repeat constructor|]. 2: cbn; apply aexec_one; constructor.
        cbn in *. unfold this_ok, next_due, new_tp in *. destruct (t_k t); lia.
    - destruct (dead d t) eqn:D; injection E as <- <- <-.
      + split; [apply OK; auto|]. cbn. apply aexec_one. constructor. now apply dead_in.
      + cbn in OI. split; [apply OK; auto; apply ins_ok; auto; unfold this_ok; cbn; lia|]. cbn. apply aexec_one. constructor. lia.
  Qed.

  Lemma x_abs_exec : forall t0 prog tr s ts, xexec (x_init t0 prog) tr (s, ts) ->
    aexec (a_init t0) tr (x_abs s (concat ts)).
  Proof.
    intros t0 prog tr s ts X. destruct (simulate xstep x_abs x_ok x_sim _ _ _ X) as [_ A].
    - cbn. rewrite app_nil_r. split; [constructor | apply acts_ok].
    - cbn [fst snd x_init] in A. cbn [concat] in A. rewrite app_nil_r in A.
      unfold x_abs at 1 in A. rewrite acts_hand in A. exact A.
  Qed.

  (** now is the start time plus what was advanced. *)
  Lemma x_clock : forall t0 prog tr c, xexec (x_init t0 prog) tr c -> x_now (fst c) = t0 + advanced tr.
  Proof.
    intros t0 prog tr c X. remember (x_init t0 prog) as c0 eqn:E0. induction X as [c|c tr c1 ls c2 X IH G]; subst; [cbn; lia|].
    specialize (IH eq_refl). assert (AA : advanced (tr ++ ls) = advanced tr + advanced ls) by (unfold advanced; now rewrite flat_map_app, zsum_app).
    rewrite AA, Z.add_assoc, <- IH. clear AA. unfold advanced.
    inversion G as [s ts1 it rest ts2 s' its ls' E]; subst. cbn [fst]. clear - E.
    destruct s as [now q d n]. destruct it as [[dd code h|dd|h]| |t|t r|t tp]; cbn [xstep x_now x_queue x_dead x_next] in E.
    all: try (injection E as <- <- <-; cbn; lia).
    - destruct q as [|t q]; [injection E as <- <- <-; cbn; lia|]. destruct (_ <? _); [injection E as <- <- <-; cbn; lia|].
      destruct (dead d t); injection E as <- <- <-; cbn; lia.
    - destruct (beh _ _). injection E as <- <- <-. cbn. lia.
    - destruct r; injection E as <- <- <-; cbn; lia.
    - destruct (dead d t); injection E as <- <- <-; cbn; lia.
  Qed.

  (** When control is back in the outer program, nothing due is left. *)
  Definition later (now : Z) (q : list task) : Prop := forall t, In t q -> now < t_tp t.
  Fixpoint sorted (q : list task) : Prop := match q with [] => True | t :: r => (forall u, In u r -> t_tp t <= t_tp u) /\ sorted r end.
  Lemma ins_sorted : forall t q, sorted q -> sorted (t_ins t q).
  Proof.
    induction q as [|x q IH]; cbn; [intros _; split; auto; intros u []|]. intros [A B]. destruct (Z.ltb_spec (t_tp t) (t_tp x)); cbn.
    - repeat split; auto. intros u [<- | I]; [lia|]. specialize (A u I). lia.
    - split; auto. intros u I. apply t_ins_in in I. destruct I; subst; auto.
  Qed.
  (** Either nothing due is left, or a drain is still to come before the outer program goes on. *)
  Definition XQ (s : xstate) (ts : list (list xitem)) : Prop :=
    exists stk rest, ts = [stk ++ map XAct rest] /\ sorted (x_queue s) /\
    (stk = [] -> later (x_now s) (x_queue s)) /\ (stk <> [] -> exists stk', stk = stk' ++ [XDrain]).
  Lemma x_quiet : forall t0 prog tr s ts, xexec (x_init t0 prog) tr (s, ts) -> XQ s ts.
  Proof.
    intros t0 prog tr s ts X. remember (x_init t0 prog) as c0 eqn:E0. remember (s, ts) as c eqn:EC.
    revert s ts EC. induction X as [c|c tr c1 ls c2 X IH G]; intros s ts EC; subst.
    - injection EC as <- <-. exists [], prog. cbn. repeat split; auto; try congruence. intros _ t [].
    - inversion G as [s1 ts1 it rest ts2 s' its ls' E E1 E2 E3]; subst. specialize (IH eq_refl _ _ eq_refl).
      destruct IH as (stk & outer & ET & SO & QL & QD).
      destruct ts1 as [|x ts1]; [|cbn in ET; injection ET as ? ET; destruct ts1; discriminate].
      cbn in ET. injection ET as ER ET. subst ts2. cbn [app].
      destruct stk as [|i0 stk].
      + (* the outer program makes a step *)
        cbn in ER. destruct outer as [|a outer]; [discriminate|]. injection ER as -> ->.
        destruct s1 as [now q d n]. cbn [x_queue x_now] in *.
        destruct a as [dd code h|dd|h]; cbn in E; injection E as <- <- <-.
        * exists [XDrain], outer. cbn [x_queue x_now]. repeat split; auto; [apply ins_sorted; auto | discriminate | exists []; auto].
        * exists [XDrain], outer. cbn [x_queue x_now]. repeat split; auto; [discriminate | exists []; auto].
        * exists [], outer. cbn [x_queue x_now]. repeat split; auto.
      + (* a drain is running *)
        injection ER as -> ->. destruct (QD ltac:(discriminate)) as [stk' ES]. clear QD QL.
        destruct stk' as [|i1 stk'].
        * injection ES as -> ->. destruct s1 as [now q d n]. cbn [xstep x_queue x_now x_dead x_next] in *.
          destruct q as [|t q].
          -- injection E as <- <- <-. exists [], outer. cbn. repeat split; auto; try congruence. intros _ t [].
          -- destruct (Z.ltb_spec now (t_tp t)).
             ++ injection E as <- <- <-. exists [], outer. cbn [x_queue x_now]. split; [reflexivity|]. split; [exact SO|]. split; [|congruence]. cbn in SO.
                intros _ u [<- | I]; [lia|]. destruct SO as [SO _]. specialize (SO _ I). lia.
             ++ destruct (dead d t); injection E as <- <- <-; cbn in SO.
                ** exists [XDrain], outer. cbn. repeat split; try tauto; try discriminate. exists []; auto.
                ** exists [XRun t; XDrain], outer. cbn. repeat split; try tauto; try discriminate. exists [XRun t]; auto.
        * injection ES as -> ->. exists (its ++ stk' ++ [XDrain]), outer. rewrite <- !app_assoc. repeat split.
          -- destruct s1 as [now q d n]. destruct i1 as [[dd code h|dd|h]| |t|t r|t tp]; cbn [xstep x_now x_queue x_dead x_next] in E, SO.
             all: try (injection E as <- <- <-; cbn [x_queue]; auto using ins_sorted; fail).
             ++ destruct q as [|t q]; [injection E as <- <- <-; cbn; auto|]. destruct (_ <? _); [injection E as <- <- <-; auto|].
                cbn in SO. destruct (dead d t); injection E as <- <- <-; cbn; tauto.
             ++ destruct (beh _ _). injection E as <- <- <-. auto.
             ++ destruct r; injection E as <- <- <-; auto.
             ++ destruct (dead d t); injection E as <- <- <-; cbn [x_queue]; auto using ins_sorted.
          -- intro H. destruct its; [destruct stk'; discriminate | discriminate].
          -- intros _. exists (its ++ stk'). now rewrite app_assoc.
  Qed.
End Test.
