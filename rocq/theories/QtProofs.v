(** The Qt scheduler makes only steps of the abstract event loop; how early a task may be. *)
From Coq Require Import ZArith NArith Permutation.
From Verif Require Import Base QueueSpec SchedSpec LoopSpec LoopBase LoopAbs EvSpec EvAbs StrandModel StrandProofs QtModel.
Open Scope Z_scope.

Section P.
  Variable kind : nat -> skind.
  Variable beh : nat -> nat -> list qact * sres.
  Variable onerr : nat -> list qact.
  Notation q_move := (q_move kind beh onerr).
  Notation q_act := (q_act kind onerr).
  Notation q_defer := (q_defer onerr).
  Notation q_call := (q_call beh).
  Notation q_exec := (q_exec kind beh onerr).
  Notation bex := (bexec false).

  Definition qi_wait (i : qitem) : list task := match i with QDefer t _ => [t] | _ => [] end.
  Definition qi_run (i : qitem) : list task := match i with QRet t _ _ => [t] | _ => [] end.
  Definition qbag (s : qstate) : list task := map core (q_posted s ++ q_timers s ++ flat_map qi_wait (q_pc s)).
  Definition qrun (s : qstate) : list task := map core (flat_map qi_run (q_pc s)).
  Definition qabs (s : qstate) : bstate := BState (q_now s) (qbag s) (qrun s) (q_dead s) (q_next s).

  Lemma flat_wait_qacts : forall l, flat_map qi_wait (map QAct l) = [].
  Proof. induction l; auto. Qed.
  Lemma flat_run_qacts : forall l, flat_map qi_run (map QAct l) = [].
  Proof. induction l; auto. Qed.
  Lemma qabs_with : forall s its pc, flat_map qi_wait its = [] -> flat_map qi_run its = [] -> qabs (q_with s (its ++ pc)) = qabs (q_with s pc).
  Proof. intros s its pc A B. unfold qabs, qbag, qrun. cbn. now rewrite !flat_map_app, A, B. Qed.
  Lemma bexf_perm : forall X ls c b b' r d n, bex X ls (BState c b r d n) -> Permutation b b' -> bex X ls (BState c b' r d n).
  Proof. intros X ls c b b' r d n H P. rewrite <- (app_nil_r ls). econstructor; [exact H|]. constructor; auto. lia. Qed.

  Lemma q_defer_pc : forall s t d s' acts ls, q_defer s t d = (s', acts, ls) -> q_pc s' = q_pc s.
  Proof. intros s t d s' acts ls E. unfold QtModel.q_defer in E. destruct (negb _); [|destruct (_ =? 0)]; injection E as <- <- <-; reflexivity. Qed.
  Lemma q_act_pc : forall s a s' acts ls, q_act s a = (s', acts, ls) -> q_pc s' = q_pc s.
  Proof.
    intros s a s' acts ls E. destruct a; cbn in E.
    - destruct (q_defer _ _ _) as [[s1 a1] l1] eqn:F. injection E as <- <- <-. apply q_defer_pc in F. exact F.
    - destruct (q_defer _ _ _) as [[s1 a1] l1] eqn:F. injection E as <- <- <-. apply q_defer_pc in F. exact F.
    - injection E as <- <- <-. reflexivity.
  Qed.
  Lemma q_with_same : forall s, q_with s (q_pc s) = s.
  Proof. intros []. reflexivity. Qed.

  Lemma defer_sim : forall s t d s' acts ls b, q_defer s t d = (s', acts, ls) -> Permutation b (core t :: qbag s) ->
    bex (BState (q_now s) b (qrun s) (q_dead s) (q_next s)) ls (qabs s').
  Proof.
    intros s t d s' acts ls b E P. unfold QtModel.q_defer in E. destruct (negb _).
    - injection E as <- <- <-. apply bexec_one. apply (B_fail false (q_now s) b (qbag s) (qrun s) (q_dead s) (q_next s) (core t) P).
    - destruct (_ =? 0); injection E as <- <- <-.
      + eapply bexec_cons; [apply (B_note false (q_now s) b (qrun s) (q_dead s) (q_next s) (core t)); [apply (Permutation_in _ (Permutation_sym P)); now left | now left]|].
        apply bexec_one. apply (B_silent false); [cbn; lia|]. rewrite P. unfold qbag. cbn [q_posted q_timers q_pc].
        match goal with |- Permutation (core ?t :: map core ?l) _ => change (core t :: map core l) with (map core (t :: l)) end.
        apply Permutation_map. rewrite <- app_assoc. cbn [app]. apply Permutation_middle.
      + set (x := q_now s + Z.max 0 d / ms * ms).
        eapply bexec_cons; [apply (B_note false (q_now s) b (qrun s) (q_dead s) (q_next s) (core t)); [apply (Permutation_in _ (Permutation_sym P)); now left | right; now exists x]|].
        apply bexec_one. apply (B_silent false); [cbn; lia|]. rewrite P. unfold qbag. cbn [q_posted q_timers q_pc].
        change (core t) with (core (at_tp t x)).
        match goal with |- Permutation (core ?t :: map core ?l) _ => change (core t :: map core l) with (map core (t :: l)) end.
        apply Permutation_map. rewrite <- (app_assoc (q_timers s)). cbn [app]. rewrite <- !Permutation_middle. reflexivity.
  Qed.
  Lemma act_qsim : forall s a s' acts ls, q_act s a = (s', acts, ls) -> bex (qabs s) ls (qabs s').
  Proof.
    intros s a s' acts ls E. destruct a as [d code h|tp code h|h]; cbn [QtModel.q_act] in E.
    - destruct (q_defer _ _ _) as [[s1 a1] l1] eqn:F. injection E as <- <- <-. eapply bexec_cons; [apply (B_call false _ _ _ _ _ VWorker h (kind code) code)|].
      apply (defer_sim _ _ _ _ _ _ _ F). apply Permutation_refl.
    - destruct (q_defer _ _ _) as [[s1 a1] l1] eqn:F. injection E as <- <- <-. eapply bexec_cons; [apply (B_call false _ _ _ _ _ VWorker h (kind code) code)|].
      apply (defer_sim _ _ _ _ _ _ _ F). apply Permutation_refl.
    - injection E as <- <- <-. apply bexec_one. apply (B_disp false).
  Qed.
  Lemma call_sim : forall s t s' ls b, q_call s t = (s', ls) -> q_pc s = [] -> Permutation b (core t :: qbag s) ->
    bex (BState (q_now s) b [] (q_dead s) (q_next s)) ls (qabs s').
  Proof.
    intros s t s' ls b E PC P. unfold QtModel.q_call in E. apply bexec_one. destruct (dead _ _) eqn:DD.
    - injection E as <- <-. unfold qabs. replace (qrun s) with (@nil task) by (unfold qrun; now rewrite PC).
      apply (B_drop false (q_now s) b (qbag s) [] (q_dead s) (q_next s) (core t) P). now apply dead_in.
    - destruct (beh _ _) as [acts r]. injection E as <- <-. unfold qabs.
      match goal with |- bstep _ _ _ (BState _ ?b2 ?r2 _ _) => replace b2 with (qbag s); [replace r2 with [core t]|] end.
      + apply (B_start false (q_now s) b (qbag s) [] (q_dead s) (q_next s) (core t) P); [now apply dead_nin | discriminate].
      + unfold qrun. cbn. now rewrite flat_map_app, flat_run_qacts.
      + unfold qbag. cbn. now rewrite flat_map_app, flat_wait_qacts, PC.
  Qed.

  Lemma move_qsim : forall s m s' ls, q_move s m = Some (s', ls) -> bex (qabs s) ls (qabs s').
  Proof.
    intros s m s' ls E. destruct m as [d| |a| |i|]; cbn [QtModel.q_move] in E.
    - injection E as <- <-. apply bexec_one. apply (B_silent false); [cbn [q_now]; lia | apply Permutation_refl].
    - injection E as <- <-. apply bexec_one. apply (B_silent false); [cbn [q_now]; lia | apply Permutation_refl].
    - destruct (q_act s a) as [[s1 a1] l1] eqn:F. injection E as <- <-. eapply act_qsim; eauto.
    - destruct (q_pc s) as [|] eqn:PC; [|discriminate]. destruct (q_posted s) as [|t r] eqn:R; [discriminate|].
      destruct (q_call _ _) as [s1 l1] eqn:F. injection E as <- <-. unfold qabs at 1.
      replace (qrun s) with (@nil task) by (unfold qrun; now rewrite PC). apply (call_sim _ _ _ _ _ F); auto.
      unfold qbag. cbn. rewrite R, PC. apply Permutation_refl.
    - destruct (q_pc s) as [|] eqn:PC; [|discriminate]. destruct (nth_error _ _) as [t|] eqn:N; [|discriminate]. destruct (_ <=? _); [|discriminate].
      destruct (q_call _ _) as [s1 l1] eqn:F. injection E as <- <-. unfold qabs at 1.
      replace (qrun s) with (@nil task) by (unfold qrun; now rewrite PC). apply (call_sim _ _ _ _ _ F); auto.
      unfold qbag. cbn. rewrite PC. cbn. rewrite !app_nil_r.
      match goal with |- Permutation _ (core ?t :: map core ?l) => change (core t :: map core l) with (map core (t :: l)) end.
      apply Permutation_map. rewrite (del_perm _ _ _ _ N) at 1. apply Permutation_sym, Permutation_middle.
    - destruct (q_pc s) as [|it pc] eqn:PC; [discriminate|]. destruct it as [a|t r c|t d].
      + destruct (q_act _ a) as [[s1 a1] l1] eqn:F. injection E as <- <-. pose proof (q_act_pc _ _ _ _ _ F) as P1. cbn in P1.
        rewrite qabs_with by (apply flat_wait_qacts || apply flat_run_qacts). rewrite <- P1, q_with_same.
        replace (qabs s) with (qabs (q_with s pc)) by (unfold qabs, qbag, qrun; cbn; now rewrite PC). eapply act_qsim; eauto.
      + assert (RS : qrun s = core t :: map core (flat_map qi_run pc)) by (unfold qrun; now rewrite PC).
        assert (BS : qbag s = qbag (q_with s pc)) by (unfold qbag; cbn; now rewrite PC).
        apply some_pair in E. destruct E as [<- <-]. destruct r as [| |v].
        * apply bexec_one. unfold qabs at 1. rewrite RS, BS. apply (B_end false _ _ _ _ _ _ (core t)); auto.
        * apply bexec_one. unfold qabs at 1. rewrite RS, BS. apply (B_end false _ _ _ _ _ _ (core t)); auto.
        * unfold qabs. rewrite RS. match goal with |- bexec _ _ _ (BState _ ?b2 ?r2 _ _) => change r2 with (map core (flat_map qi_run pc)) end.
          change (q_now (q_with s _)) with (q_now s).
          eapply bexf_perm; [apply bexec_one; apply (B_ret false _ _ _ _ _ _ (core t)); apply Permutation_refl|].
          rewrite BS. unfold qbag. cbn [q_with q_posted q_timers q_pc flat_map qi_wait app].
          change (core (ran (q_now s) (core t) v)) with (core (ran (q_now s) t v)).
          match goal with |- Permutation (core ?t :: map core ?l) _ => change (core t :: map core l) with (map core (t :: l)) end.
          apply Permutation_map. rewrite <- !Permutation_middle. reflexivity.
      + destruct (q_defer _ _ _) as [[s1 a1] l1] eqn:F. injection E as <- <-. pose proof (q_defer_pc _ _ _ _ _ _ F) as P1. cbn in P1.
        rewrite qabs_with by (apply flat_wait_qacts || apply flat_run_qacts). rewrite <- P1, q_with_same.
        unfold qabs at 1. replace (qrun s) with (qrun (q_with s pc)) by (unfold qrun; cbn; now rewrite PC).
        apply (defer_sim _ _ _ _ _ _ _ F). unfold qbag. cbn [q_with q_posted q_timers q_pc]. rewrite PC. cbn [flat_map qi_wait app].
        match goal with |- Permutation _ (core ?t :: map core ?l) => change (core t :: map core l) with (map core (t :: l)) end.
        apply Permutation_map. rewrite <- !Permutation_middle. reflexivity.
  Qed.
  Lemma qexec_abs : forall t0 ap tr s, q_exec t0 ap tr s -> bex (b_init t0) tr (qabs s).
  Proof.
    intros t0 ap tr s X. induction X as [|tr s m ls s' X IH E]; [constructor|]. eapply bexec_app; [exact IH|]. eapply move_qsim; eauto.
  Qed.

  Lemma q_locate : forall t0 ap tr s, q_exec t0 ap tr s -> forall a x b, tr = a ++ x :: b ->
    exists tr1 s1 m ls s2 l1 l2, q_exec t0 ap tr1 s1 /\ q_move s1 m = Some (s2, ls) /\ ls = l1 ++ x :: l2 /\ a = tr1 ++ l1 /\ q_exec t0 ap (tr1 ++ ls) s2 /\ exists l3, b = l2 ++ l3.
  Proof.
    intros t0 ap tr s X. induction X as [|tr s m ls s' X IH E]; intros a x b EQ; [destruct a; discriminate|].
    assert (H : (exists l1, ls = l1 ++ x :: b /\ a = tr ++ l1) \/ exists b', tr = a ++ x :: b' /\ b = b' ++ ls).
    { clear - EQ. revert tr EQ. induction a as [|y a IH]; intros tr EQ.
      - destruct tr as [|z tr]; cbn in EQ; [left; exists []; auto|]. injection EQ as -> EQ. right. exists tr. auto.
      - destruct tr as [|z tr]; cbn in EQ; [left; exists (y :: a); auto|]. injection EQ as -> EQ. destruct (IH _ EQ) as [(l1 & -> & ->) | (b' & -> & ->)].
        + left. exists l1. auto.
        + right. exists b'. auto. }
    destruct H as [(l1 & -> & ->) | (b' & -> & ->)].
    - exists tr, s, m, (l1 ++ x :: b), s', l1, b. repeat split; auto; [econstructor; eauto | exists []; now rewrite app_nil_r].
    - destruct (IH _ _ _ eq_refl) as (tr1 & s1 & m1 & ls1 & s2 & l1 & l2 & X1 & M & -> & -> & X2 & l3 & ->).
      do 7 eexists. repeat split; eauto. exists (l3 ++ ls). now rewrite app_assoc.
  Qed.

  (** Identities. *)
  Definition qids (s : qstate) : list nat :=
    map t_id (q_posted s) ++ map t_id (q_timers s) ++ map t_id (flat_map qi_wait (q_pc s)) ++ map t_id (flat_map qi_run (q_pc s)).
  Lemma bids_qids : forall s, bids (qabs s) = qids s.
  Proof.
    intro s. unfold bids, btasks, qabs, qbag, qrun, qids, tids. cbn [b_bag b_run]. rewrite <- map_app, map_map. cbn [core at_tp t_id].
    rewrite !map_app, <- !app_assoc. reflexivity.
  Qed.
  Lemma qids_inv : forall t0 ap tr s, q_exec t0 ap tr s -> NoDup (qids s) /\ (forall i, In i (qids s) -> (i < q_next s)%nat) /\
    (forall t e i, In (t, e) tr -> id_of e = Some i -> (i < q_next s)%nat) /\ (forall i, settled tr i -> ~ In i (qids s)).
  Proof.
    intros t0 ap tr s X. pose proof (qexec_abs _ _ _ _ X) as B. destruct (b_idinv _ _ _ _ B) as [ND LT EV SE _].
    rewrite bids_qids in ND. split; auto. split; [|split; auto]; intros i I; [apply LT | rewrite <- bids_qids; auto]. now rewrite bids_qids.
  Qed.
  Lemma in_bt : forall s t, In t (q_posted s) \/ In t (q_timers s) \/ In t (flat_map qi_wait (q_pc s)) \/ In t (flat_map qi_run (q_pc s)) -> In (core t) (btasks (qabs s)).
  Proof.
    intros s t H. unfold btasks, qabs, qbag, qrun. cbn [b_bag b_run]. rewrite <- map_app. apply in_map. rewrite !in_app_iff. tauto.
  Qed.

  (** ** How early *)
  Definition early (t : task) : Z := match t_k t with KThis => ms * (1 + Z.of_nat (t_runs t)) | _ => ms end.
  Definition qi_ok (now : Z) (i : qitem) : Prop :=
    match i with
    | QAct _ => True
    | QRet t _ c => c <= now /\ t_due t < c + early t
    | QDefer t d => t_due t <= now + d + early t - ms
    end.
  Record QInv (s : qstate) : Prop := {
    v_post : Forall (fun t => t_due t < q_now s + early t) (q_posted s);
    v_tim : Forall (fun t => t_due t < t_tp t + early t) (q_timers s);
    v_pc : Forall (qi_ok (q_now s)) (q_pc s) }.
  Lemma qi_ok_mono : forall now now' i, now <= now' -> qi_ok now i -> qi_ok now' i.
  Proof. intros now now' i L. destruct i; cbn; lia. Qed.
  Lemma floor_ms : forall d, d - ms < Z.max 0 d / ms * ms /\ 0 <= Z.max 0 d / ms * ms <= Z.max 0 d.
  Proof. intro d. unfold ms. pose proof (Z.div_mod (Z.max 0 d) 1000000). pose proof (Z.mod_pos_bound (Z.max 0 d) 1000000). lia. Qed.
  Lemma defer_inv : forall s t d s' acts ls, q_defer s t d = (s', acts, ls) -> QInv s -> t_due t <= q_now s + d + early t - ms -> QInv s'.
  Proof.
    intros s t d s' acts ls E [A B C] H. unfold QtModel.q_defer in E. pose proof (floor_ms d) as F. destruct (negb _); [injection E as <- <- <-; split; auto|].
    destruct (Z.eqb_spec (Z.max 0 d / ms) 0) as [Z0|NZ]; injection E as <- <- <-; split; cbn [q_posted q_timers q_pc q_now]; auto; apply Forall_app; split; auto; constructor; auto.
    - rewrite Z0 in F. lia.
    - change (early (at_tp t _)) with (early t). cbn [at_tp t_due t_tp]. lia.
  Qed.
  Lemma fresh_qinv : forall s, QInv s -> QInv (q_fresh s).
  Proof. intros s [A B C]. split; auto. Qed.
  Lemma qact_inv : forall s a s' acts ls, q_act s a = (s', acts, ls) -> QInv s -> QInv s'.
  Proof.
    intros s a s' acts ls E I. destruct a as [d code h|tp code h|h]; cbn [QtModel.q_act] in E.
    - destruct (q_defer _ _ _) as [[s1 a1] l1] eqn:F. injection E as <- <- <-. apply (defer_inv _ _ _ _ _ _ F); [now apply fresh_qinv|].
      unfold early, ms. cbn [t_due t_k t_runs q_fresh q_now]. destruct (kind code); lia.
    - destruct (q_defer _ _ _) as [[s1 a1] l1] eqn:F. injection E as <- <- <-. apply (defer_inv _ _ _ _ _ _ F); [now apply fresh_qinv|].
      unfold early, ms. cbn [t_due t_k t_runs q_fresh q_now]. destruct (kind code); lia.
    - injection E as <- <- <-. destruct I as [A B C]. split; auto.
  Qed.
  Lemma with_qinv : forall s pc, QInv s -> Forall (qi_ok (q_now s)) pc -> QInv (q_with s pc).
  Proof. intros s pc [A B C] H. split; auto. Qed.
  Lemma qacts_ok : forall now l, Forall (qi_ok now) (map QAct l).
  Proof. intros now l. apply Forall_forall. intros x J. apply in_map_iff in J. destruct J as (a & <- & _). exact Logic.I. Qed.
  Lemma q_defer_now : forall s t d s' acts ls, q_defer s t d = (s', acts, ls) -> q_now s' = q_now s.
  Proof. intros s t d s' acts ls E. unfold QtModel.q_defer in E. destruct (negb _); [|destruct (_ =? 0)]; injection E as <- <- <-; reflexivity. Qed.
  Lemma q_act_now : forall s a s' acts ls, q_act s a = (s', acts, ls) -> q_now s' = q_now s.
  Proof.
    intros s a s' acts ls E. destruct a; cbn in E; try (destruct (q_defer _ _ _) as [[s1 a1] l1] eqn:F; injection E as <- <- <-; apply q_defer_now in F; exact F).
    injection E as <- <- <-. reflexivity.
  Qed.
  Lemma call_inv : forall s t s' ls, q_call s t = (s', ls) -> QInv s -> t_due t < q_now s + early t -> QInv s'.
  Proof.
    intros s t s' ls E I H. unfold QtModel.q_call in E. destruct (dead _ _); [injection E as <- <-; auto|]. destruct (beh _ _) as [acts r]. injection E as <- <-.
    apply with_qinv; auto. apply Forall_app. split; [apply qacts_ok|]. constructor; auto. split; [lia | exact H].
  Qed.
  Lemma move_qinv : forall s m s' ls, q_move s m = Some (s', ls) -> QInv s -> QInv s'.
  Proof.
    intros s m s' ls E I. destruct m as [d| |a| |i|]; cbn [QtModel.q_move] in E.
    - injection E as <- <-. destruct I as [A B C]. split; cbn; auto; [|eapply Forall_impl; [|exact C]; intro; apply qi_ok_mono; lia].
      eapply Forall_impl; [|exact A]. cbn. intros. lia.
    - injection E as <- <-. destruct I as [A B C]. split; auto.
    - destruct (q_act s a) as [[s1 a1] l1] eqn:F. injection E as <- <-. eapply qact_inv; eauto.
    - destruct (q_pc s) as [|] eqn:PC; [|discriminate]. destruct (q_posted s) as [|t r] eqn:R; [discriminate|].
      destruct (q_call _ _) as [s1 l1] eqn:F. injection E as <- <-. destruct I as [A B C]. rewrite R in A.
      apply (call_inv _ _ _ _ F); [split; cbn; auto; now apply Forall_inv_tail in A | now apply Forall_inv in A].
    - destruct (q_pc s) as [|] eqn:PC; [|discriminate]. destruct (nth_error _ _) as [t|] eqn:N; [|discriminate]. destruct (Z.leb_spec (t_tp t) (q_now s)); [|discriminate].
      destruct (q_call _ _) as [s1 l1] eqn:F. injection E as <- <-. destruct I as [A B C].
      rewrite Forall_forall in B. pose proof (B _ (nth_error_In _ _ N)).
      apply (call_inv _ _ _ _ F); [split; cbn; auto | cbn [q_now]; lia].
      apply Forall_forall. intros x J. apply B. eapply del_in; eauto.
    - destruct (q_pc s) as [|it pc] eqn:PC; [discriminate|].
      assert (W : QInv (q_with s pc)) by (destruct I as [A B C]; rewrite PC in C; apply with_qinv; [split; auto; now rewrite PC | now apply Forall_inv_tail in C]).
      assert (OK : qi_ok (q_now s) it) by (destruct I as [A B C]; rewrite PC in C; now apply Forall_inv in C).
      assert (TL : Forall (qi_ok (q_now s)) pc) by (destruct I as [A B C]; rewrite PC in C; now apply Forall_inv_tail in C).
      destruct it as [a|t r c|t d].
      + destruct (q_act _ a) as [[s1 a1] l1] eqn:F. injection E as <- <-. apply with_qinv; [eapply qact_inv; eauto|].
        rewrite (q_act_now _ _ _ _ _ F). apply Forall_app. split; [apply qacts_ok | exact TL].
      + apply some_pair in E. destruct E as [<- <-]. apply with_qinv; auto. apply Forall_app. split; auto.
        destruct r as [| |v]; constructor; auto. unfold qi_ok, q_delay, ran, next_due, early, ms in *. cbn [t_due t_k t_runs] in *. destruct (t_k t); lia.
      + destruct (q_defer _ _ _) as [[s1 a1] l1] eqn:F. injection E as <- <-. apply with_qinv; [eapply defer_inv; eauto|].
        rewrite (q_defer_now _ _ _ _ _ _ F). apply Forall_app. split; [apply qacts_ok | exact TL].
  Qed.
  Lemma qinv_exec : forall t0 ap tr s, q_exec t0 ap tr s -> QInv s.
  Proof. intros t0 ap tr s X. induction X; [split; constructor | eapply move_qinv; eauto]. Qed.

  (** ** The whole milliseconds asked for are waited *)
  Definition plain (t : task) : Prop := t_k t <> KThis \/ t_runs t = 0%nat.
  Definition prom (tr : list ltev) (t : task) (lim : Z) : Prop :=
    forall r, requested tr (t_id t) = Some r -> plain t -> r + (t_due t - r) / ms * ms <= lim.
  Definition prom_pc (tr : list ltev) (now : Z) (i : qitem) : Prop :=
    match i with
    | QAct _ => True
    | QRet t _ c => started tr (t_id t) = Some c
    | QDefer t d => forall r, requested tr (t_id t) = Some r -> r <= now /\ (plain t -> t_due t = r + d) /\
        (~ plain t -> exists c l v, started tr (t_id t) = Some c /\ intervals tr (t_id t) = l ++ [v] /\ d = c + v - r)
    end.
  Record PInv (tr : list ltev) (s : qstate) : Prop := {
    p_post : Forall (fun t => prom tr t (q_now s)) (q_posted s);
    p_tim : Forall (fun t => prom tr t (t_tp t)) (q_timers s);
    p_pc : Forall (prom_pc tr (q_now s)) (q_pc s) }.
  Lemma pinv_trace : forall tr ls s, PInv tr s -> (forall i, In i (qids s) -> same tr (tr ++ ls) i) -> PInv (tr ++ ls) s.
  Proof.
    intros tr ls s [A B C] H. split.
    - rewrite Forall_forall in *. intros t I r. destruct (H (t_id t)) as (-> & _ & _); [apply in_or_app; left; now apply in_map | now apply A].
    - rewrite Forall_forall in *. intros t I r. destruct (H (t_id t)) as (-> & _ & _); [|now apply B]. apply in_or_app. right. apply in_or_app. left. now apply in_map.
    - rewrite Forall_forall in *. intros it I. specialize (C _ I). destruct it as [a|t r c|t d]; cbn in *; auto.
      + destruct (H (t_id t)) as (_ & -> & _); auto. apply in_or_app. right. apply in_or_app. right. apply in_or_app. right. apply in_map. apply in_flat_map. exists (QRet t r c). split; auto. now left.
      + destruct (H (t_id t)) as (-> & -> & ->); auto. apply in_or_app. right. apply in_or_app. right. apply in_or_app. left. apply in_map. apply in_flat_map. exists (QDefer t d). split; auto. now left.
  Qed.
  (** The event of one defer_for. *)
  Definition defer_ok (ap : bool) (now : Z) (id h : nat) (d : Z) (e : lev) : Prop :=
    (ap = false /\ e = LErr id h) \/ (ap = true /\ d < ms /\ e = LPick id) \/ (ap = true /\ ms <= d /\ e = LAgain id (now + d / ms * ms)).
  Lemma defer_ev : forall s t d s' acts ls, q_defer s t d = (s', acts, ls) -> exists e, ls = [(q_now s, e)] /\ defer_ok (q_app s) (q_now s) (t_id t) (t_h t) d e.
  Proof.
    intros s t d s' acts ls E. unfold QtModel.q_defer in E. unfold defer_ok. destruct (q_app s); cbn [negb] in E.
    - destruct (Z.ltb_spec d ms) as [L|L].
      + replace (Z.max 0 d / ms =? 0) with true in E by (symmetry; apply Z.eqb_eq, Z.div_small; unfold ms in *; lia).
        injection E as <- <- <-. eexists. split; [reflexivity|]. auto.
      + assert (M : Z.max 0 d = d) by (unfold ms in L; lia). rewrite M in E.
        assert (1 <= d / ms) by (apply Z.div_le_lower_bound; unfold ms in *; lia).
        replace (d / ms =? 0) with false in E by (symmetry; apply Z.eqb_neq; lia).
        injection E as <- <- <-. eexists. split; [reflexivity|]. auto.
    - injection E as <- <- <-. eexists. split; [reflexivity|]. auto.
  Qed.
  Lemma defer_same : forall s t d s' acts ls tr i, q_defer s t d = (s', acts, ls) -> same tr (tr ++ ls) i.
  Proof.
    intros s t d s' acts ls tr i E. destruct (defer_ev _ _ _ _ _ _ E) as (e & -> & [[_ ->] | [[_ [_ ->]] | [_ [_ ->]]]]); now apply same_quiet.
  Qed.
  Lemma defer_prom : forall tr s t d s' acts ls, q_defer s t d = (s', acts, ls) -> PInv tr s ->
    (forall r, requested tr (t_id t) = Some r -> r <= q_now s /\ (plain t -> t_due t = r + d)) -> PInv tr s'.
  Proof.
    intros tr s t d s' acts ls E [A B C] H. unfold QtModel.q_defer in E. destruct (negb _); [injection E as <- <- <-; split; auto|].
    assert (D : d / ms <= Z.max 0 d / ms) by (apply Z.div_le_mono; unfold ms; lia).
    destruct (Z.eqb_spec (Z.max 0 d / ms) 0) as [Z0|NZ]; injection E as <- <- <-; split; cbn; auto; apply Forall_app; split; auto; constructor; auto.
    - intros r R PL. destruct (H _ R) as [L Q]. rewrite (Q PL). replace (r + d - r) with d by lia. unfold ms in *. lia.
    - intros r R PL. destruct (H _ R) as [L Q]. cbn [at_tp t_tp t_due]. rewrite (Q PL). replace (r + d - r) with d by lia. unfold ms in *. lia.
  Qed.
  Lemma fresh_prom : forall tr s, PInv tr s -> PInv tr (q_fresh s).
  Proof. intros tr s [A B C]. split; auto. Qed.
  Lemma qact_prom : forall tr s a s' acts ls, q_act s a = (s', acts, ls) -> PInv tr s -> (forall i, In i (qids s) -> (i < q_next s)%nat) -> PInv (tr ++ ls) s'.
  Proof.
    intros tr s a s' acts ls E I LT.
    assert (G : forall h k code x d s1 a1 l1, x = q_now s + d -> q_defer (q_fresh s) (Task (q_next s) h k code 0 x x) d = (s1, a1, l1) ->
      PInv (tr ++ (q_now s, LCall VWorker (q_next s) h k x) :: l1) s1).
    { intros h k code x d s1 a1 l1 EX F. set (e := (q_now s, LCall VWorker (q_next s) h k x)).
      assert (I1 : PInv (tr ++ [e]) (q_fresh s)).
      { apply fresh_prom. apply pinv_trace; auto. intros i J. apply same_quiet. cbn. destruct (Nat.eqb_spec (q_next s) i); auto. specialize (LT _ J). lia. }
      assert (I2 : PInv (tr ++ [e]) s1).
      { apply (defer_prom _ _ _ _ _ _ _ F I1). intros r R. rewrite requested_app in R. cbn in R. rewrite Nat.eqb_refl in R. injection R as <-. cbn. split; [lia | auto]. }
      replace (tr ++ e :: l1) with ((tr ++ [e]) ++ l1) by (rewrite <- app_assoc; reflexivity).
      apply pinv_trace; auto. intros i _. eapply defer_same; eauto. }
    destruct a as [d code h|tp code h|h]; cbn [QtModel.q_act] in E.
    - destruct (q_defer _ _ _) as [[s1 a1] l1] eqn:F. injection E as <- <- <-. eapply G; eauto.
    - destruct (q_defer _ _ _) as [[s1 a1] l1] eqn:F. injection E as <- <- <-. eapply G; [|eauto]. lia.
    - injection E as <- <- <-. apply pinv_trace; [destruct I as [A B C]; split; auto|]. intros i _. now apply same_quiet.
  Qed.
  Lemma with_prom : forall tr s pc, PInv tr s -> Forall (prom_pc tr (q_now s)) pc -> PInv tr (q_with s pc).
  Proof. intros tr s pc [A B C] H. split; auto. Qed.
  Lemma qacts_prom : forall tr now l, Forall (prom_pc tr now) (map QAct l).
  Proof. intros tr now l. apply Forall_forall. intros x J. apply in_map_iff in J. destruct J as (a & <- & _). exact Logic.I. Qed.
  Lemma call_prom : forall tr s t s' ls, q_call s t = (s', ls) -> PInv tr s -> ~ In (t_id t) (qids s) -> PInv (tr ++ ls) s'.
  Proof.
    intros tr s t s' ls E I NI. unfold QtModel.q_call in E. destruct (dead _ _).
    - injection E as <- <-. apply pinv_trace; auto. intros. now apply same_quiet.
    - destruct (beh _ _) as [acts r]. injection E as <- <-. apply with_prom.
      + apply pinv_trace; auto. intros i J. apply same_quiet. cbn. destruct (Nat.eqb_spec (t_id t) i); auto. now subst.
      + apply Forall_app. split; [apply qacts_prom|]. constructor; auto. cbn. rewrite started_app. cbn. now rewrite Nat.eqb_refl.
  Qed.
  Lemma pinv_exec : forall t0 ap tr s, q_exec t0 ap tr s -> PInv tr s.
  Proof.
    intros t0 ap tr s X. induction X as [|tr s m ls s' X I E]; [split; constructor|].
    destruct (qids_inv _ _ _ _ X) as (ND & LT & _ & _). destruct m as [d| |a| |i|]; cbn [QtModel.q_move] in E.
    - injection E as <- <-. rewrite app_nil_r. destruct I as [A B C]. split; cbn; auto.
      + eapply Forall_impl; [|exact A]. intros t H r R PL. specialize (H r R PL). lia.
      + eapply Forall_impl; [|exact C]. intros it H. destruct it; cbn in *; auto. intros r R. specialize (H r R). split; [lia | tauto].
    - injection E as <- <-. rewrite app_nil_r. destruct I as [A B C]. split; auto.
    - destruct (q_act s a) as [[s1 a1] l1] eqn:F. injection E as <- <-. eapply qact_prom; eauto.
    - destruct (q_pc s) as [|] eqn:PC; [|discriminate]. destruct (q_posted s) as [|t r] eqn:R; [discriminate|].
      destruct (q_call _ _) as [s1 l1] eqn:F. injection E as <- <-. apply (call_prom _ _ _ _ _ F).
      + destruct I as [A B C]. rewrite R in A. split; cbn; auto. now apply Forall_inv_tail in A.
      + unfold qids in *. rewrite R, PC in ND. cbn in *. now inversion ND.
    - destruct (q_pc s) as [|] eqn:PC; [|discriminate]. destruct (nth_error _ _) as [t|] eqn:N; [|discriminate]. destruct (_ <=? _); [|discriminate].
      destruct (q_call _ _) as [s1 l1] eqn:F. injection E as <- <-. apply (call_prom _ _ _ _ _ F).
      + destruct I as [A B C]. split; cbn; auto. rewrite Forall_forall in *. intros x J. apply B. eapply del_in; eauto.
      + unfold qids in *. rewrite PC in ND. cbn in *. rewrite !app_nil_r in *.
        assert (P : Permutation (map t_id (q_posted s) ++ map t_id (q_timers s)) (t_id t :: map t_id (q_posted s) ++ map t_id (del i (q_timers s)))).
        { rewrite (Permutation_map t_id (del_perm _ _ _ _ N)) at 1. cbn. apply Permutation_sym, Permutation_middle. }
        apply (Permutation_NoDup P) in ND. now inversion ND.
    - destruct (q_pc s) as [|it pc] eqn:PC; [discriminate|].
      assert (W : PInv tr (q_with s pc)) by (destruct I as [A B C]; rewrite PC in C; apply with_prom; [split; auto; now rewrite PC | now apply Forall_inv_tail in C]).
      assert (OK : prom_pc tr (q_now s) it) by (destruct I as [A B C]; rewrite PC in C; now apply Forall_inv in C).
      assert (SUB : forall j, In j (qids (q_with s pc)) -> In j (qids s)).
      { intros j. unfold qids. cbn. rewrite PC. cbn [flat_map]. rewrite !map_app, !in_app_iff. tauto. }
      destruct it as [a|t r c|t d].
      + destruct (q_act _ a) as [[s1 a1] l1] eqn:F. injection E as <- <-.
        assert (P1 : PInv (tr ++ l1) s1) by (eapply qact_prom; [exact F | exact W | intros; apply LT; auto]).
        apply with_prom; auto. apply Forall_app. split; [apply qacts_prom|].
        destruct P1 as [_ _ C1]. rewrite (q_act_pc _ _ _ _ _ F) in C1. exact C1.
      + apply some_pair in E. destruct E as [<- <-].
        assert (NI : ~ In (t_id t) (qids (q_with s pc))).
        { unfold qids in ND |- *. rewrite PC in ND. cbn [flat_map qi_wait qi_run q_with q_posted q_timers q_pc app map] in *.
          rewrite !app_assoc in ND. apply NoDup_remove_2 in ND. rewrite !app_assoc. exact ND. }
        assert (W2 : PInv (tr ++ [(q_now s, LEnd (t_id t) r)]) (q_with s pc)).
        { apply pinv_trace; auto. intros i J. apply same_quiet. cbn. destruct (Nat.eqb_spec (t_id t) i); auto. subst. contradiction. }
        destruct W2 as [A2 B2 C2]. split; auto. cbn. apply Forall_app. split; [|exact C2].
        destruct r as [| |v]; constructor; auto. cbn. intros r R. rewrite requested_app in R. cbn in R. rewrite Nat.eqb_refl in R. injection R as <-.
        split; [lia|]. split.
        * intros [K|K]; [|discriminate]. unfold next_due, q_delay. cbn in K. destruct (t_k t); try congruence; lia.
        * intro NP. exists c, (intervals tr (t_id t)), v. rewrite started_app. unfold intervals. rewrite flat_map_app. cbn. rewrite Nat.eqb_refl.
          repeat split; auto. unfold q_delay. destruct (t_k t) eqn:KK; auto; exfalso; apply NP; left; cbn; congruence.
      + destruct (q_defer _ _ _) as [[s1 a1] l1] eqn:F. injection E as <- <-. apply pinv_trace; [|intros; eapply defer_same; eauto].
        assert (P1 : PInv tr s1) by (apply (defer_prom _ _ _ _ _ _ _ F W); intros r R; destruct (OK r R) as (O1 & O2 & _); auto).
        apply with_prom; auto. apply Forall_app. split; [apply qacts_prom|].
        destruct P1 as [_ _ C1]. rewrite (q_defer_pc _ _ _ _ _ _ F) in C1. exact C1.
  Qed.

  (** ** Events *)
  Lemma call_ev : forall s t s' ls l1 x l2, q_call s t = (s', ls) -> ls = l1 ++ x :: l2 -> l1 = [] /\ l2 = [] /\ (snd x = LStart (t_id t) \/ snd x = LDrop (t_id t)) /\ fst x = q_now s.
  Proof.
    intros s t s' ls l1 x l2 E Q. unfold QtModel.q_call in E. destruct (dead _ _); [|destruct (beh _ _)]; injection E as <- <-; apply one_split in Q; destruct Q as (-> & -> & ->); auto.
  Qed.
  Definition from_defer (s : qstate) (l1 l2 : list ltev) (id : nat) (e : lev) : Prop :=
    l2 = [] /\
    ((l1 = [] /\ exists t d pc, q_pc s = QDefer t d :: pc /\ t_id t = id /\ defer_ok (q_app s) (q_now s) id (t_h t) d e) \/
     exists h k tp, id = q_next s /\ l1 = [(q_now s, LCall VWorker id h k tp)] /\ defer_ok (q_app s) (q_now s) id h (tp - q_now s) e).
  Definition qev_ok (s : qstate) (x : ltev) (l1 l2 : list ltev) : Prop :=
    fst x = q_now s /\
    match snd x with
    | LCall v id h k tp => l1 = [] /\ v = VWorker /\ id = q_next s /\ exists e, l2 = [(q_now s, e)] /\ defer_ok (q_app s) (q_now s) id h (tp - q_now s) e
    | LErr id _ | LAgain id _ | LPick id => from_defer s l1 l2 id (snd x)
    | LStart id => l1 = [] /\ l2 = [] /\ q_pc s = [] /\ exists t, t_id t = id /\
        ((exists r, q_posted s = t :: r) \/ (In t (q_timers s) /\ t_tp t <= q_now s))
    | LEnd id r => l1 = [] /\ l2 = []
    | LDrop _ | LDisp _ => True
    | _ => False
    end.
  Lemma qact_ev : forall s a s' acts ls, q_act s a = (s', acts, ls) ->
    (exists h, ls = [(q_now s, LDisp h)]) \/
    exists h k tp e, ls = [(q_now s, LCall VWorker (q_next s) h k tp); (q_now s, e)] /\ defer_ok (q_app s) (q_now s) (q_next s) h (tp - q_now s) e.
  Proof.
    intros s a s' acts ls E. destruct a as [d code h|tp code h|h]; cbn [QtModel.q_act] in E.
    - destruct (q_defer _ _ _) as [[s1 a1] l] eqn:F. injection E as <- <- <-. destruct (defer_ev _ _ _ _ _ _ F) as (e & -> & D). cbn in D.
      right. do 4 eexists. split; [reflexivity|]. replace (q_now s + d - q_now s) with d by lia. exact D.
    - destruct (q_defer _ _ _) as [[s1 a1] l] eqn:F. injection E as <- <- <-. destruct (defer_ev _ _ _ _ _ _ F) as (e & -> & D). cbn in D.
      right. do 4 eexists. split; [reflexivity | exact D].
    - injection E as <- <- <-. left. eauto.
  Qed.
  Lemma act_qev : forall s s' a acts ls, q_act s' a = (s, acts, ls) -> forall s0, q_now s0 = q_now s' -> q_next s0 = q_next s' -> q_app s0 = q_app s' ->
    forall l1 x l2, ls = l1 ++ x :: l2 -> qev_ok s0 x l1 l2.
  Proof.
    intros s s' a acts ls E s0 N1 N2 N3 l1 x l2 Q. destruct (qact_ev _ _ _ _ _ E) as [(h & ->) | (h & k & tp & e & -> & D)]; rewrite <- N1 in *.
    - apply one_split in Q. destruct Q as (-> & -> & ->). split; [reflexivity | exact Logic.I].
    - rewrite <- N2, <- N3 in D. rewrite <- N2 in Q. apply two_split in Q. destruct Q as [(-> & -> & ->) | (-> & -> & ->)]; (split; [reflexivity|]); cbn [snd].
      + repeat split; auto. exists e. auto.
      + assert (FD : from_defer s0 [(q_now s0, LCall VWorker (q_next s0) h k tp)] [] (q_next s0) e) by (split; auto; right; eauto 8).
        destruct D as [[_ ->] | [[_ [_ ->]] | [_ [_ ->]]]]; exact FD.
  Qed.
  Lemma move_qev : forall s m s' ls, q_move s m = Some (s', ls) -> forall l1 x l2, ls = l1 ++ x :: l2 -> qev_ok s x l1 l2.
  Proof.
    intros s m s' ls E l1 x l2 Q. destruct m as [d| |a| |i|]; cbn [QtModel.q_move] in E.
    - injection E as <- <-. destruct l1; discriminate.
    - injection E as <- <-. destruct l1; discriminate.
    - destruct (q_act s a) as [[s1 a1] ll] eqn:F. injection E as <- <-. eapply act_qev; eauto.
    - destruct (q_pc s) as [|] eqn:PC; [|discriminate]. destruct (q_posted s) as [|t r] eqn:R; [discriminate|].
      destruct (q_call _ _) as [s1 ll] eqn:F. injection E as <- <-. destruct (call_ev _ _ _ _ _ _ _ F Q) as (-> & -> & [K|K] & T); cbn in T; destruct x as [c e]; cbn in K, T; subst; (split; [reflexivity|]); cbn; auto.
      repeat split; auto. exists t. split; auto. left. eauto.
    - destruct (q_pc s) as [|] eqn:PC; [|discriminate]. destruct (nth_error _ _) as [t|] eqn:N; [|discriminate]. destruct (Z.leb_spec (t_tp t) (q_now s)); [|discriminate].
      destruct (q_call _ _) as [s1 ll] eqn:F. injection E as <- <-. destruct (call_ev _ _ _ _ _ _ _ F Q) as (-> & -> & [K|K] & T); cbn in T; destruct x as [c e]; cbn in K, T; subst; (split; [reflexivity|]); cbn; auto.
      repeat split; auto. exists t. split; auto. right. split; auto. eapply nth_error_In; eauto.
    - destruct (q_pc s) as [|it pc] eqn:PC; [discriminate|]. destruct it as [a|t r c|t d].
      + destruct (q_act _ a) as [[s1 a1] ll] eqn:F. injection E as <- <-. eapply act_qev; eauto.
      + apply some_pair in E. destruct E as [<- <-]. apply one_split in Q. destruct Q as (-> & -> & ->). split; [reflexivity | now split].
      + destruct (q_defer _ _ _) as [[s1 a1] ll] eqn:F. injection E as <- <-. destruct (defer_ev _ _ _ _ _ _ F) as (e & -> & D). cbn in D, Q.
        apply one_split in Q. destruct Q as (-> & -> & ->). split; [reflexivity|]. cbn [snd].
        assert (FD : from_defer s [] [] (t_id t) e) by (split; auto; left; split; auto; exists t, d, pc; auto).
        destruct D as [[_ ->] | [[_ [_ ->]] | [_ [_ ->]]]]; exact FD.
  Qed.
  (** An error: no application. *)
  Lemma err_qev : forall s l1 l2 id h, from_defer s l1 l2 id (LErr id h) -> l2 = [] /\ q_app s = false /\
    ((l1 = [] /\ exists t, In t (flat_map qi_wait (q_pc s)) /\ t_id t = id /\ t_h t = h) \/ exists k tp, id = q_next s /\ l1 = [(q_now s, LCall VWorker id h k tp)]).
  Proof.
    intros s l1 l2 id h (-> & [(-> & t & d & pc & PC & EI & D) | (h' & k & tp & EI & -> & D)]); destruct D as [[A D] | [[_ [_ D]] | [_ [_ D]]]]; try discriminate; injection D as ->; repeat split; auto.
    - left. split; auto. exists t. rewrite PC. split; auto. now left.
    - right. eauto.
  Qed.
  (** ** Order *)
  Lemma postq_app : forall tr ls, postq (tr ++ ls) = fold_left post1 ls (postq tr).
  Proof. intros. unfold postq. apply fold_left_app. Qed.
  Lemma defer_post : forall s t d s' acts ls, q_defer s t d = (s', acts, ls) -> fold_left post1 ls (map t_id (q_posted s)) = map t_id (q_posted s').
  Proof.
    intros s t d s' acts ls E. unfold QtModel.q_defer in E. destruct (negb _); [|destruct (_ =? 0)]; injection E as <- <- <-; cbn; auto. now rewrite map_app.
  Qed.
  Lemma qact_post : forall s a s' acts ls, q_act s a = (s', acts, ls) -> fold_left post1 ls (map t_id (q_posted s)) = map t_id (q_posted s').
  Proof.
    intros s a s' acts ls E. destruct a as [d code h|tp code h|h]; cbn [QtModel.q_act] in E.
    - destruct (q_defer _ _ _) as [[s1 a1] l] eqn:F. injection E as <- <- <-. apply (defer_post _ _ _ _ _ _ F).
    - destruct (q_defer _ _ _) as [[s1 a1] l] eqn:F. injection E as <- <- <-. apply (defer_post _ _ _ _ _ _ F).
    - injection E as <- <- <-. reflexivity.
  Qed.
  Lemma call_post : forall s t s' ls l, q_call s t = (s', ls) -> drop_id (t_id t) l = map t_id (q_posted s) -> fold_left post1 ls l = map t_id (q_posted s').
  Proof.
    intros s t s' ls l E H. unfold QtModel.q_call in E. destruct (dead _ _); [|destruct (beh _ _)]; injection E as <- <-; exact H.
  Qed.
  Lemma post_inv : forall t0 ap tr s, q_exec t0 ap tr s -> postq tr = map t_id (q_posted s).
  Proof.
    intros t0 ap tr s X. induction X as [|tr s m ls s' X I E]; [reflexivity|]. rewrite postq_app, I. destruct (qids_inv _ _ _ _ X) as (ND & LT & _ & _).
    destruct m as [d| |a| |i|]; cbn [QtModel.q_move] in E.
    - injection E as <- <-. reflexivity.
    - injection E as <- <-. reflexivity.
    - destruct (q_act s a) as [[s1 a1] l1] eqn:F. injection E as <- <-. eapply qact_post; eauto.
    - destruct (q_pc s) as [|] eqn:PC; [|discriminate]. destruct (q_posted s) as [|t r] eqn:R; [discriminate|].
      destruct (q_call _ _) as [s1 l1] eqn:F. injection E as <- <-. apply (call_post _ _ _ _ _ F). cbn [map]. apply drop_head.
      unfold qids in ND. rewrite R in ND. cbn in ND. inversion ND as [|? ? NI _]; subst. intro J. apply NI. apply in_or_app. auto.
    - destruct (q_pc s) as [|] eqn:PC; [|discriminate]. destruct (nth_error _ _) as [t|] eqn:N; [|discriminate]. destruct (_ <=? _); [|discriminate].
      destruct (q_call _ _) as [s1 l1] eqn:F. injection E as <- <-. apply (call_post _ _ _ _ _ F). apply drop_none.
      unfold qids in ND. intro J. apply nth_error_In in N. apply (in_map t_id) in N. clear - ND J N.
      induction (q_posted s) as [|y l IH]; [contradiction|]. cbn in ND, J. inversion ND as [|? ? NI ND']; subst. destruct J as [J|J]; [|auto].
      apply NI. rewrite J. apply in_or_app. right. apply in_or_app. auto.
    - destruct (q_pc s) as [|it pc] eqn:PC; [discriminate|]. destruct it as [a|t r c|t d].
      + destruct (q_act _ a) as [[s1 a1] l1] eqn:F. injection E as <- <-. apply (qact_post _ _ _ _ _ F).
      + apply some_pair in E. destruct E as [<- <-]. reflexivity.
      + destruct (q_defer _ _ _) as [[s1 a1] l1] eqn:F. injection E as <- <-. apply (defer_post _ _ _ _ _ _ F).
  Qed.
  (** The application, once there, stays. *)
  Lemma q_defer_app : forall s t d s' acts ls, q_defer s t d = (s', acts, ls) -> q_app s' = q_app s.
  Proof. intros s t d s' acts ls E. unfold QtModel.q_defer in E. destruct (negb _); [|destruct (_ =? 0)]; injection E as <- <- <-; reflexivity. Qed.
  Lemma move_app : forall s m s' ls, q_move s m = Some (s', ls) -> q_app s = true -> q_app s' = true.
  Proof.
    intros s m s' ls E A.
    assert (ACT : forall s0 a s1 a1 l1, q_act s0 a = (s1, a1, l1) -> q_app s1 = q_app s0).
    { intros s0 a s1 a1 l1 F. destruct a; cbn in F; try (destruct (q_defer _ _ _) as [[s3 a3] l3] eqn:F3; injection F as <- <- <-; apply q_defer_app in F3; exact F3). injection F as <- <- <-. reflexivity. }
    assert (CALL : forall s0 t s1 l1, q_call s0 t = (s1, l1) -> q_app s1 = q_app s0).
    { intros s0 t s1 l1 F. unfold QtModel.q_call in F. destruct (dead _ _); [|destruct (beh _ _)]; injection F as <- <-; reflexivity. }
    destruct m as [d| |a| |i|]; cbn [QtModel.q_move] in E.
    - injection E as <- <-. exact A.
    - injection E as <- <-. reflexivity.
    - destruct (q_act s a) as [[s1 a1] l1] eqn:F. injection E as <- <-. rewrite (ACT _ _ _ _ _ F). exact A.
    - destruct (q_pc s); [|discriminate]. destruct (q_posted s); [discriminate|]. destruct (q_call _ _) as [s1 l1] eqn:F. injection E as <- <-. rewrite (CALL _ _ _ _ F). exact A.
    - destruct (q_pc s); [|discriminate]. destruct (nth_error _ _); [|discriminate]. destruct (_ <=? _); [|discriminate]. destruct (q_call _ _) as [s1 l1] eqn:F. injection E as <- <-. rewrite (CALL _ _ _ _ F). exact A.
    - destruct (q_pc s) as [|it pc]; [discriminate|]. destruct it as [a|t r c|t d].
      + destruct (q_act _ a) as [[s1 a1] l1] eqn:F. injection E as <- <-. cbn. rewrite (ACT _ _ _ _ _ F). exact A.
      + apply some_pair in E. destruct E as [<- <-]. exact A.
      + destruct (q_defer _ _ _) as [[s1 a1] l1] eqn:F. injection E as <- <-. cbn. rewrite (q_defer_app _ _ _ _ _ _ F). exact A.
  Qed.
  Lemma exec_app : forall t0 tr s, q_exec t0 true tr s -> q_app s = true.
  Proof. intros t0 tr s X. induction X; [reflexivity | eapply move_app; eauto]. Qed.
  (** Not a single task is in the loop while there is none. *)
  Lemma no_app : forall t0 ap tr s, q_exec t0 ap tr s -> q_app s = false -> q_posted s = [] /\ q_timers s = [] /\ q_pc s = [].
  Proof.
    intros t0 ap tr s X. induction X as [|tr s m ls s' X IH E]; intro A; [auto|].
    assert (A0 : q_app s = false) by (destruct (q_app s) eqn:A0; auto; rewrite (move_app _ _ _ _ E A0) in A; discriminate).
    destruct (IH A0) as (P1 & P2 & P3). destruct m as [d| |a| |i|]; cbn [QtModel.q_move] in E.
    - injection E as <- <-. auto.
    - injection E as <- <-. discriminate.
    - destruct a; cbn in E; unfold QtModel.q_defer in E; cbn in E; rewrite ?A0 in E; cbn in E; injection E as <- <-; auto.
    - rewrite P3, P1 in E. discriminate.
    - rewrite P3, P2 in E. destruct i; discriminate.
    - rewrite P3 in E. discriminate.
  Qed.
End P.
