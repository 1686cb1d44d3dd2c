(** The strand makes only steps of the abstract event loop; order, errors, timers. *)
From Coq Require Import ZArith NArith Permutation.
From Verif Require Import Base QueueSpec SchedSpec LoopSpec LoopBase LoopAbs EvSpec EvAbs StrandModel.
Open Scope Z_scope.

Section P.
  Variable kind : nat -> skind.
  Variable beh : nat -> nat -> list sact * sres.
  Variable onerr : nat -> list sact.
  Notation s_move := (s_move kind beh onerr).
  Notation s_act := (s_act kind).
  Notation s_exec := (s_exec kind beh onerr).
  Notation bex := (bexec true).

  Definition p_wait (i : pitem) : list task := match i with PTimer e _ => [e_t e] | _ => [] end.
  Definition p_run (i : pitem) : list task := match i with PRet e _ => [e_t e] | _ => [] end.
  Definition bag (s : sstate) : list task :=
    map core (map e_t (s_ready s) ++ map e_t (s_timers s) ++ s_local s ++ flat_map p_wait (s_pc s)).
  Definition running (s : sstate) : list task := map core (flat_map p_run (s_pc s)).
  Definition babs (s : sstate) : bstate := BState (s_now s) (bag s) (running s) (s_dead s) (s_next s).

  Definition p_ok (now : Z) (i : pitem) : Prop :=
    match i with
    | PAct _ | PDrain => True
    | PRet e _ => t_due (e_t e) <= now /\ (e_cur e = true -> t_tp (e_t e) = t_due (e_t e))
    | PTimer e (Within d) => t_due (e_t e) <= now + d /\ e_cur e = false
    | PTimer e (At tp) => t_due (e_t e) <= tp /\ (e_cur e = true -> t_due (e_t e) = tp)
    end.
  Record SInv (s : sstate) : Prop := {
    i_ready : Forall (fun e => t_due (e_t e) <= s_now s /\ (e_cur e = true -> t_tp (e_t e) = t_due (e_t e))) (s_ready s);
    i_timers : Forall (fun e => t_due (e_t e) <= t_tp (e_t e) /\ (e_cur e = true -> t_tp (e_t e) = t_due (e_t e))) (s_timers s);
    i_local : Forall (fun t => t_tp t = t_due t) (s_local s);
    i_pc : Forall (p_ok (s_now s)) (s_pc s)
  }.

  Lemma dead_in : forall d t, dead d t = true <-> In (t_h t) d.
  Proof.
    intros d t. unfold dead. rewrite existsb_exists. split.
    - intros (x & I & E). apply Nat.eqb_eq in E. now subst x.
    - intro I. exists (t_h t). split; auto. apply Nat.eqb_refl.
  Qed.
  Lemma dead_nin : forall d t, dead d t = false -> ~ In (t_h t) d.
  Proof. intros d t H I. apply dead_in in I. congruence. Qed.
  Lemma p_ok_mono : forall now now' i, now <= now' -> p_ok now i -> p_ok now' i.
  Proof. intros now now' [a|e r|e [d|tp]|] L; cbn; intuition lia. Qed.

  Lemma t_ins_forall : forall (P : task -> Prop) t q, P t -> Forall P q -> Forall P (t_ins t q).
  Proof. intros P t q A B. apply Forall_forall. intros x I. apply t_ins_in in I. destruct I as [->|I]; auto. rewrite Forall_forall in B. auto. Qed.
  Lemma del_in : forall A (l : list A) i x, In x (del i l) -> In x l.
  Proof. induction l as [|y l IH]; intros i x I; [destruct i; auto|]. destruct i; cbn in I; [now right|]. destruct I as [->|I]; [now left | right; eauto]. Qed.
  Lemma del_perm : forall A (l : list A) i x, nth_error l i = Some x -> Permutation l (x :: del i l).
  Proof.
    induction l as [|y l IH]; intros i x E; [destruct i; discriminate|]. destruct i; cbn in *; [injection E as ->; auto|].
    rewrite (IH _ _ E) at 1. constructor.
  Qed.

  Lemma timer_inv : forall s e x s' ls, SInv s -> p_ok (s_now s) (PTimer e x) -> s_timer s e x = (s', ls) -> SInv s'.
  Proof.
    intros s e x s' ls [A B C D] P E. unfold s_timer in E. destruct (dead _ _); injection E as <- <-; split; cbn; auto.
    apply Forall_app. split; auto. constructor; auto. cbn. destruct x; cbn in P; intuition congruence.
  Qed.
  Lemma post_inv : forall s e s' ls, SInv s -> t_due (e_t e) <= s_now s -> (e_cur e = true -> t_tp (e_t e) = t_due (e_t e)) -> s_post s e = (s', ls) -> SInv s'.
  Proof.
    intros s e s' ls [A B C D] P1 P2 E. unfold s_post in E. destruct (dead _ _); injection E as <- <-; split; cbn; auto.
    apply Forall_app. split; auto.
  Qed.
  Lemma fresh_inv : forall s, SInv s -> SInv (s_fresh s).
  Proof. intros s [A B C D]. split; cbn; auto. Qed.
  Lemma act_inv : forall b s a s' ls, SInv s -> s_act b s a = (s', ls) -> SInv s'.
  Proof.
    intros b s a s' ls I E. destruct a as [d code h|tp code h|d code h|h]; cbn [StrandModel.s_act] in E.
    - destruct (d =? 0) eqn:Z0.
      + apply Z.eqb_eq in Z0. subst d. destruct (s_post _ _) as [s1 l1] eqn:P. injection E as <- <-.
        eapply post_inv; [apply fresh_inv; eauto | | | exact P]; cbn; auto; lia.
      + destruct (s_timer _ _ _) as [s1 l1] eqn:P. injection E as <- <-. eapply timer_inv; [apply fresh_inv; eauto | | exact P]. cbn. split; auto. lia.
    - destruct (s_timer _ _ _) as [s1 l1] eqn:P. injection E as <- <-. eapply timer_inv; [apply fresh_inv; eauto | | exact P]. cbn. split; auto. lia.
    - destruct b; [|injection E as <- <-; auto]. destruct (dead _ _); injection E as <- <-; [now apply fresh_inv|].
      destruct I as [A B C D]. split; cbn; auto. apply t_ins_forall; auto.
    - injection E as <- <-. destruct I as [A B C D]. split; cbn; auto.
  Qed.
  Lemma ret_inv : forall s e r its ls, p_ok (s_now s) (PRet e r) -> s_ret onerr s e r = (its, ls) -> Forall (p_ok (s_now s)) its.
  Proof.
    intros s e r its ls [P1 P2] E. unfold s_ret in E. destruct r as [| |v].
    - injection E as <- <-. constructor.
    - destruct (e_cur e); injection E as <- <-; [|constructor]. apply Forall_forall. intros x I. apply in_map_iff in I. destruct I as (a & <- & _). exact Logic.I.
    - injection E as <- <-. constructor; [|constructor]. destruct (e_cur e) eqn:C.
      + specialize (P2 eq_refl). unfold p_ok, ran, next_due, new_tp. cbn [e_t e_cur t_due]. destruct (t_k (e_t e)); split; intros; lia.
      + unfold p_ok, ran, next_due. cbn [e_t e_cur t_due]. destruct (t_k (e_t e)); split; auto; try lia; discriminate.
  Qed.
  Lemma move_inv : forall s m s' ls, SInv s -> s_move s m = Some (s', ls) -> SInv s'.
  Proof.
    intros s m s' ls I E. destruct m as [d|a|i| |]; cbn [StrandModel.s_move] in E.
    - injection E as <- <-. destruct I as [A B C D]. split; cbn; auto.
      + eapply Forall_impl; [|exact A]. cbn. intros e [P1 P2]. split; auto. lia.
      + eapply Forall_impl; [|exact D]. intros e. apply p_ok_mono. lia.
    - destruct (s_act false s a) as [s1 l1] eqn:F. injection E as <- <-. eapply act_inv; eauto.
    - destruct (nth_error _ _) as [e|] eqn:N; [|discriminate]. destruct (_ && _) eqn:C; [|discriminate]. injection E as <- <-.
      apply andb_prop in C. destruct C as [C _]. apply Z.leb_le in C. destruct I as [A B C1 D]. split; cbn; auto.
      + apply Forall_app. split; auto. constructor; auto. apply nth_error_In in N. rewrite Forall_forall in B. specialize (B _ N). intuition lia.
      + rewrite Forall_forall in *. intros x J. apply B. eapply del_in; eauto.
    - destruct (s_pc s) as [|] eqn:PC; [|discriminate]. destruct (s_ready s) as [|e r] eqn:R; [discriminate|].
      destruct I as [A B C D]. rewrite R in A. inversion A as [|? ? [A1 A2] A3]; subst. destruct (dead _ _).
      + injection E as <- <-. split; cbn; auto.
      + destruct (beh _ _) as [acts res]. injection E as <- <-. split; cbn; auto. apply Forall_app. split.
        * apply Forall_forall. intros x J. apply in_map_iff in J. destruct J as (a & <- & _). exact Logic.I.
        * constructor; [split; auto | constructor; [exact Logic.I | constructor]].
    - destruct (s_pc s) as [|it pc] eqn:PC; [discriminate|]. destruct I as [A B C D]. rewrite PC in D. inversion D as [|? ? D1 D2]; subst.
      assert (W : SInv (s_with s pc)) by (split; cbn; auto).
      destruct it as [a|e r|e x|].
      + destruct (s_act true _ a) as [s1 l1] eqn:F. injection E as <- <-. eapply act_inv; eauto.
      + destruct (s_ret _ _ _ _) as [its l1] eqn:F. injection E as <- <-. split; cbn; auto. apply Forall_app. split; auto. eapply ret_inv; eauto.
      + destruct (s_timer _ _ _) as [s1 l1] eqn:F. injection E as <- <-. eapply timer_inv; [exact W | exact D1 | exact F].
      + destruct (s_local s) as [|t q] eqn:L; [injection E as <- <-; exact W|]. inversion C as [|? ? C1 C2]; subst.
        destruct (dead _ _); injection E as <- <-; split; cbn; auto; [now rewrite PC|]. constructor; [|constructor; auto]. cbn. split; intros; lia.
  Qed.

  (** The guard is drained before the handler is left. *)
  Definition shape (s : sstate) : Prop :=
    match s_pc s with [] => s_local s = [] | _ => exists pc, s_pc s = pc ++ [PDrain] end.
  Lemma act_pc : forall b s a s' ls, s_act b s a = (s', ls) -> s_pc s' = s_pc s /\ (b = false -> s_local s' = s_local s).
  Proof.
    intros b s a s' ls E. destruct a as [d code h|tp code h|d code h|h]; cbn [StrandModel.s_act] in E; unfold s_post, s_timer in E.
    - destruct (d =? 0); destruct (dead _ _); injection E as <- <-; auto.
    - destruct (dead _ _); injection E as <- <-; auto.
    - destruct b; [destruct (dead _ _)|]; injection E as <- <-; split; auto; discriminate.
    - injection E as <- <-; auto.
  Qed.
  Lemma shape_tail : forall it pc0 pc, it :: pc0 = pc ++ [PDrain] -> it <> PDrain -> exists pc', pc0 = pc' ++ [PDrain].
  Proof. intros it pc0 pc E N. destruct pc as [|x pc]; cbn in E; [congruence|]. injection E as -> ->. eauto. Qed.
  Lemma shape_snoc : forall s pc, s_pc s = pc ++ [PDrain] -> shape s.
  Proof. intros s pc E. unfold shape. rewrite E. destruct pc; cbn; [now exists [] | eexists (_ :: _); reflexivity]. Qed.
  Lemma move_shape : forall s m s' ls, shape s -> s_move s m = Some (s', ls) -> shape s'.
  Proof.
    intros s m s' ls I E. destruct m as [d|a|i| |]; cbn [StrandModel.s_move] in E.
    - injection E as <- <-. exact I.
    - destruct (s_act false s a) as [s1 l1] eqn:F. injection E as <- <-. destruct (act_pc _ _ _ _ _ F) as [P1 P2]. unfold shape in *. rewrite P1, P2; auto.
    - destruct (nth_error _ _) as [e|] eqn:N; [|discriminate]. destruct (_ && _) eqn:C; [|discriminate]. injection E as <- <-. exact I.
    - destruct (s_pc s) as [|] eqn:PC; [|discriminate]. destruct (s_ready s) as [|e r] eqn:R; [discriminate|].
      unfold shape in I. rewrite PC in I. destruct (dead _ _).
      + injection E as <- <-. exact I.
      + destruct (beh _ _) as [acts res]. injection E as <- <-. eapply (shape_snoc _ (map PAct acts ++ [PRet e res])). cbn. now rewrite <- app_assoc.
    - destruct (s_pc s) as [|it pc] eqn:PC; [discriminate|]. unfold shape in I. rewrite PC in I. destruct I as (pc' & I).
      destruct it as [a|e r|e x|]; try (destruct (shape_tail _ _ _ I ltac:(discriminate)) as (pc2 & ->)).
      + destruct (s_act true _ a) as [s1 l1] eqn:F. injection E as <- <-. destruct (act_pc _ _ _ _ _ F) as [P1 P2]. eapply shape_snoc. exact P1.
      + destruct (s_ret _ _ _ _) as [its l1] eqn:F. injection E as <- <-. eapply (shape_snoc _ (its ++ pc2)). cbn. now rewrite <- app_assoc.
      + unfold s_timer in E. destruct (dead _ _); injection E as <- <-; eapply shape_snoc; reflexivity.
      + destruct (s_local s) as [|t q] eqn:L.
        * injection E as <- <-. destruct pc as [|y pc]; [exact L|]. destruct pc' as [|z pc']; [discriminate|]. cbn in I. injection I as _ I.
          eapply shape_snoc. exact I.
        * destruct (dead _ _); injection E as <- <-.
          -- eapply shape_snoc. cbn. rewrite PC. exact I.
          -- eapply (shape_snoc _ (PTimer (Entry t true) (At (t_tp t)) :: pc')). cbn. now rewrite I.
  Qed.

  (** ** Simulation *)
  Lemma bex_perm : forall X ls c b b' r d n, bex X ls (BState c b r d n) -> Permutation b b' -> bex X ls (BState c b' r d n).
  Proof. intros X ls c b b' r d n H P. rewrite <- (app_nil_r ls). econstructor; [exact H|]. constructor; auto. lia. Qed.

  Lemma timer_sim : forall s e x s' ls b, s_timer s e x = (s', ls) -> Permutation b (core (e_t e) :: bag s) ->
    bex (BState (s_now s) b (running s) (s_dead s) (s_next s)) ls (babs s').
  Proof.
    intros s e x s' ls b E P. unfold s_timer in E. destruct (dead _ _) eqn:DD; injection E as <- <-.
    - apply bexec_one. apply (B_drop true (s_now s) b (bag s) (running s) (s_dead s) (s_next s) (core (e_t e)) P). now apply dead_in.
    - set (tp := match x with Within d => s_now s + d | At tp => tp end).
      eapply bexec_cons; [apply (B_note true (s_now s) b (running s) (s_dead s) (s_next s) (core (e_t e)))|].
      + apply (Permutation_in _ (Permutation_sym P)). now left.
      + right. now exists tp.
      + apply bexec_one. unfold babs. cbn [s_now s_dead s_next]. apply (B_silent true); [lia|]. rewrite P. unfold bag. cbn [s_ready s_timers s_local s_pc].
        change (core (e_t e)) with (core (at_tp (e_t e) tp)).
        change (core (at_tp (e_t e) tp) :: map core (map e_t (s_ready s) ++ map e_t (s_timers s) ++ s_local s ++ flat_map p_wait (s_pc s)))
          with (map core (at_tp (e_t e) tp :: map e_t (s_ready s) ++ map e_t (s_timers s) ++ s_local s ++ flat_map p_wait (s_pc s))).
        apply Permutation_map. rewrite map_app. cbn [map e_t]. rewrite <- app_assoc. cbn [app].
        rewrite Permutation_middle. apply Permutation_app_head. apply Permutation_middle.
  Qed.
  Lemma post_sim : forall s e s' ls b, s_post s e = (s', ls) -> Permutation b (core (e_t e) :: bag s) ->
    bex (BState (s_now s) b (running s) (s_dead s) (s_next s)) ls (babs s').
  Proof.
    intros s e s' ls b E P. unfold s_post in E. destruct (dead _ _) eqn:DD; injection E as <- <-.
    - apply bexec_one. apply (B_drop true (s_now s) b (bag s) (running s) (s_dead s) (s_next s) (core (e_t e)) P). now apply dead_in.
    - apply bexec_one. unfold babs. cbn [s_now s_dead s_next]. apply (B_silent true); [lia|]. rewrite P. unfold bag. cbn [s_ready s_timers s_local s_pc].
      change (core (e_t e) :: map core (map e_t (s_ready s) ++ map e_t (s_timers s) ++ s_local s ++ flat_map p_wait (s_pc s)))
        with (map core (e_t e :: map e_t (s_ready s) ++ map e_t (s_timers s) ++ s_local s ++ flat_map p_wait (s_pc s))).
      apply Permutation_map. rewrite map_app. cbn [map]. rewrite <- app_assoc. cbn [app]. apply Permutation_middle.
  Qed.
  Lemma act_sim : forall b s a s' ls, s_act b s a = (s', ls) -> bex (babs s) ls (babs s').
  Proof.
    intros b s a s' ls E. destruct a as [d code h|tp code h|d code h|h]; cbn [StrandModel.s_act] in E.
    - destruct (d =? 0) eqn:Z0.
      + destruct (s_post _ _) as [s1 l1] eqn:P. injection E as <- <-. eapply bexec_cons; [apply (B_call true _ _ _ _ _ VWorker h (kind code) code)|].
        apply (post_sim _ _ _ _ _ P). apply Permutation_refl.
      + destruct (s_timer _ _ _) as [s1 l1] eqn:P. injection E as <- <-. eapply bexec_cons; [apply (B_call true _ _ _ _ _ VWorker h (kind code) code)|].
        apply (timer_sim _ _ _ _ _ _ P). apply Permutation_refl.
    - destruct (s_timer _ _ _) as [s1 l1] eqn:P. injection E as <- <-. eapply bexec_cons; [apply (B_call true _ _ _ _ _ VWorker h (kind code) code)|].
      apply (timer_sim _ _ _ _ _ _ P). apply Permutation_refl.
    - destruct b; [|injection E as <- <-; constructor]. destruct (dead _ _) eqn:DD; injection E as <- <-.
      + eapply bexec_cons; [apply (B_call true _ _ _ _ _ VNested h (kind code) code)|]. apply bexec_one.
        apply (B_drop true (s_now s) _ (bag s) (running s) (s_dead s) (S (s_next s)) (Task (s_next s) h (kind code) code 0 (s_now s + d) 0)); [apply Permutation_refl|].
        apply dead_in in DD. exact DD.
      + eapply bexec_cons; [apply (B_call true _ _ _ _ _ VNested h (kind code) code)|]. apply bexec_one. apply (B_silent true); [cbn; lia|].
        unfold bag. cbn [s_ready s_timers s_local s_pc s_queue s_fresh].
        set (t := Task (s_next s) h (kind code) code 0 (s_now s + d) (s_now s + d)).
        change (Task (s_next s) h (kind code) code 0 (s_now s + d) 0) with (core t).
        change (core t :: map core (map e_t (s_ready s) ++ map e_t (s_timers s) ++ s_local s ++ flat_map p_wait (s_pc s)))
          with (map core (t :: map e_t (s_ready s) ++ map e_t (s_timers s) ++ s_local s ++ flat_map p_wait (s_pc s))).
        apply Permutation_map. rewrite (t_ins_perm t (s_local s)). rewrite Permutation_middle. apply Permutation_app_head. rewrite Permutation_middle. apply Permutation_app_head. reflexivity.
    - injection E as <- <-. apply bexec_one. apply (B_disp true).
  Qed.

  Lemma flat_wait_acts : forall l, flat_map p_wait (map PAct l) = [].
  Proof. induction l; auto. Qed.
  Lemma flat_run_acts : forall l, flat_map p_run (map PAct l) = [].
  Proof. induction l; auto. Qed.

  Lemma some_pair : forall A B (a c : A) (b d : B), Some (a, b) = Some (c, d) -> a = c /\ b = d.
  Proof. intros A B a c b d E. injection E; auto. Qed.
  Lemma move_sim : forall s m s' ls tr, SInv s -> shape s -> BIds tr (babs s) -> s_move s m = Some (s', ls) -> bex (babs s) ls (babs s').
  Proof.
    intros s m s' ls tr I SH BI E. destruct m as [d|a|i| |]; cbn [StrandModel.s_move] in E.
    - injection E as <- <-. apply bexec_one. apply (B_silent true); [cbn [s_now]; lia | apply Permutation_refl].
    - destruct (s_act false s a) as [s1 l1] eqn:F. injection E as <- <-. eapply act_sim; eauto.
    - destruct (nth_error _ _) as [e|] eqn:N; [|discriminate]. destruct (_ && _) eqn:C; [|discriminate]. injection E as <- <-.
      eapply bexec_cons; [apply (B_note true (s_now s) _ _ _ _ (core (e_t e)))|].
      + unfold bag. apply in_map. apply in_or_app. right. apply in_or_app. left. apply in_map. eapply nth_error_In; eauto.
      + left. reflexivity.
      + apply bexec_one. apply (B_silent true); [cbn; lia|]. unfold bag. cbn [s_ready s_timers s_local s_pc]. apply Permutation_map.
        rewrite map_app. cbn [map]. rewrite <- app_assoc. apply Permutation_app_head. cbn [app].
        rewrite (Permutation_map e_t (del_perm _ _ _ _ N)) at 1. reflexivity.
    - destruct (s_pc s) as [|] eqn:PC; [|discriminate]. destruct (s_ready s) as [|e r] eqn:R; [discriminate|].
      destruct I as [A B C D]. rewrite R in A. inversion A as [|? ? [A1 A2] A3]; subst. destruct (dead _ _) eqn:DD.
      + injection E as <- <-. apply bexec_one. unfold babs. cbn [s_now s_dead s_next].
        replace (running (SState (s_now s) r (s_timers s) [] (s_local s) (s_dead s) (s_next s))) with (running s) by (unfold running; now rewrite PC).
        apply (B_drop true (s_now s) (bag s) _ (running s) (s_dead s) (s_next s) (core (e_t e))); [|now apply dead_in].
        unfold bag. rewrite R, PC. apply Permutation_refl.
      + destruct (beh _ _) as [acts res]. injection E as <- <-. apply bexec_one. unfold babs. cbn [s_now s_dead s_next].
        unfold bag at 2, running. rewrite PC. cbn [s_pc s_local s_ready s_timers]. rewrite !flat_map_app, flat_wait_acts, flat_run_acts. cbn [app flat_map p_wait p_run map].
        apply (B_start true (s_now s) (bag s) _ [] (s_dead s) (s_next s) (core (e_t e))); [| now apply dead_nin | auto].
        unfold bag. rewrite R, PC. cbn [map app flat_map]. unfold shape in SH. rewrite PC in SH. rewrite SH. apply Permutation_refl.
    - destruct (s_pc s) as [|it pc] eqn:PC; [discriminate|]. destruct I as [A B C D]. rewrite PC in D. inversion D as [|? ? D1 D2]; subst.
      destruct it as [a|e r|e x|].
      + destruct (s_act true _ a) as [s1 l1] eqn:F. injection E as <- <-.
        replace (babs s) with (babs (s_with s pc)) by (unfold babs, bag, running; cbn; now rewrite PC). eapply act_sim; eauto.
      + assert (BA : forall its, flat_map p_wait its = [] -> bag (s_with s (its ++ pc)) = bag s).
        { intros its N. unfold bag. cbn. rewrite PC. cbn. now rewrite flat_map_app, N. }
        assert (RU : forall its, flat_map p_run its = [] -> running (s_with s (its ++ pc)) = map core (flat_map p_run pc)).
        { intros its N. unfold running. cbn. now rewrite flat_map_app, N. }
        assert (RS : running s = core (e_t e) :: map core (flat_map p_run pc)) by (unfold running; now rewrite PC).
        assert (BW : forall its, flat_map p_wait its = [] -> flat_map p_run its = [] ->
          babs (s_with s (its ++ pc)) = BState (s_now s) (bag s) (map core (flat_map p_run pc)) (s_dead s) (s_next s)).
        { intros its N1 N2. rewrite <- (BA _ N1), <- (RU _ N2). reflexivity. }
        assert (BS : babs s = BState (s_now s) (bag s) (core (e_t e) :: map core (flat_map p_run pc)) (s_dead s) (s_next s)) by (unfold babs; now rewrite RS).
        destruct r as [| |v]; unfold s_ret in E.
        * apply some_pair in E; destruct E as [<- <-]. apply bexec_one. rewrite (BW []), BS by reflexivity.
          apply (B_end true _ _ _ _ _ _ (core (e_t e))); auto.
        * assert (Q : forall its, flat_map p_wait its = [] -> flat_map p_run its = [] ->
            bstep true (babs s) [(s_now s, LEnd (t_id (e_t e)) RThrow)] (babs (s_with s (its ++ pc)))).
          { intros its N1 N2. rewrite (BW _ N1 N2), BS. apply (B_end true _ _ _ _ _ _ (core (e_t e))); auto. }
          destruct (e_cur e); apply some_pair in E; destruct E as [<- <-]; [|apply bexec_one; now apply (Q [])].
          eapply bexec_cons; [apply (Q (map PAct (onerr (t_h (e_t e))))); [apply flat_wait_acts | apply flat_run_acts]|]. apply bexec_one.
          rewrite (BW _ (flat_wait_acts _) (flat_run_acts _)).
          destruct BI as [ND LT EV SE CA]. unfold bids, btasks in ND, LT. rewrite BS in ND, LT. cbn [b_bag b_run b_next] in ND, LT.
          apply (B_err true).
          -- apply LT. unfold tids. rewrite map_app. apply in_or_app. right. now left.
          -- unfold tids in *. rewrite map_app in *. cbn [map] in ND. apply NoDup_remove_2 in ND. exact ND.
        * apply some_pair in E; destruct E as [<- <-]. rewrite BS. unfold babs. cbn [s_now s_dead s_next].
          match goal with |- bexec _ _ _ (BState _ _ ?r2 _ _) => change r2 with (map core (flat_map p_run pc)) end.
          change (s_now (s_with s _)) with (s_now s).
          match goal with |- bexec _ _ _ (BState _ ?b2 _ _ _) => assert (EQ : Permutation (core (ran (s_now s) (e_t e) v) :: bag s) b2) end.
          { unfold bag. cbn [s_with s_ready s_timers s_local s_pc]. rewrite PC. cbn [flat_map p_wait app e_t].
            set (t' := ran (s_now s) (e_t e) v).
            match goal with |- Permutation (core t' :: map core ?l) _ => change (core t' :: map core l) with (map core (t' :: l)) end.
            apply Permutation_map. rewrite !app_assoc. apply Permutation_middle. }
          eapply bex_perm; [|exact EQ]. apply bexec_one. apply (B_ret true _ _ _ _ _ _ (core (e_t e))). apply Permutation_refl.
      + destruct (s_timer _ _ _) as [s1 l1] eqn:F. injection E as <- <-.
        assert (RS : running s = running (s_with s pc)) by (unfold running; cbn; now rewrite PC).
        unfold babs at 1. rewrite RS. apply (timer_sim _ _ _ _ _ (bag s) F). unfold bag. cbn [s_with s_ready s_timers s_local s_pc]. rewrite PC. cbn [flat_map p_wait app].
        match goal with |- Permutation _ (core ?t :: map core ?l) => change (core t :: map core l) with (map core (t :: l)) end.
        apply Permutation_map. rewrite !app_assoc. apply Permutation_sym, Permutation_middle.
      + destruct (s_local s) as [|t q] eqn:L.
        * injection E as <- <-. replace (babs (s_with s pc)) with (babs s) by (unfold babs, bag, running; cbn; now rewrite PC, L). constructor.
        * destruct (dead _ _) eqn:DD; injection E as <- <-.
          -- apply bexec_one. apply (B_drop true (s_now s) (bag s) _ (running s) (s_dead s) (s_next s) (core t)); [|now apply dead_in].
             unfold bag. cbn [s_queue s_ready s_timers s_local s_pc]. rewrite L.
             match goal with |- Permutation _ (core ?t :: map core ?l) => change (core t :: map core l) with (map core (t :: l)) end.
             apply Permutation_map. cbn [app]. rewrite <- !Permutation_middle. reflexivity.
          -- apply bexec_one. unfold babs. cbn [s_queue s_with s_now s_dead s_next].
             match goal with |- bstep _ _ _ (BState _ _ ?r2 _ _) => replace r2 with (running s) by (unfold running; cbn; now rewrite PC) end.
             apply (B_silent true); [lia|]. unfold bag. cbn [s_queue s_with s_ready s_timers s_local s_pc]. rewrite PC, L. cbn [flat_map p_wait app e_t].
             apply Permutation_map. rewrite <- !Permutation_middle. reflexivity.
  Qed.

  Lemma exec_all : forall t0 tr s, s_exec t0 tr s -> SInv s /\ shape s /\ bex (b_init t0) tr (babs s).
  Proof.
    intros t0 tr s X. induction X as [|tr s m ls s' X (I & SH & B) E].
    - split; [split; constructor|]. split; [reflexivity|]. constructor.
    - split; [eapply move_inv; eauto|]. split; [eapply move_shape; eauto|]. eapply bexec_app; [exact B|]. eapply move_sim; eauto. eapply b_idinv; eauto.
  Qed.

  Lemma s_locate : forall t0 tr s, s_exec t0 tr s -> forall a x b, tr = a ++ x :: b ->
    exists tr1 s1 m ls s2 l1 l2, s_exec t0 tr1 s1 /\ s_move s1 m = Some (s2, ls) /\ ls = l1 ++ x :: l2 /\ a = tr1 ++ l1 /\ s_exec t0 (tr1 ++ ls) s2 /\ exists l3, b = l2 ++ l3.
  Proof.
    intros t0 tr s X. induction X as [|tr s m ls s' X IH E]; intros a x b EQ; [destruct a; discriminate|].
    assert (H : (exists l1, ls = l1 ++ x :: b /\ a = tr ++ l1) \/ exists b', tr = a ++ x :: b' /\ b = b' ++ ls).
    { clear - EQ. revert tr EQ. induction a as [|y a IH]; intros tr EQ.
      - destruct tr as [|z tr]; cbn in EQ; [left; exists []; auto|]. injection EQ as -> EQ. right. exists tr. auto.
      - destruct tr as [|z tr]; cbn in EQ; [left; exists (y :: a); auto|]. injection EQ as -> EQ. destruct (IH _ EQ) as [(l1 & -> & ->) | (b' & -> & ->)].
        + left. exists l1. auto.
        + right. exists b'. auto. }
    destruct H as [(l1 & -> & ->) | (b' & -> & ->)].
    - exists tr, s, m, (l1 ++ x :: b), s', l1, b. repeat split; auto; [econstructor; eauto | exists []; now rewrite app_nil_r].
    - destruct (IH _ _ _ eq_refl) as (tr1 & s1 & m1 & ls1 & s2 & l1 & l2 & X1 & M & -> & -> & X2 & l3 & ->).
      do 7 eexists. repeat split; eauto. exists (l3 ++ ls). now rewrite app_assoc.
  Qed.

  (** Identities of the tasks, container by container. *)
  Definition eid (e : entry) : nat := t_id (e_t e).
  Definition ids (s : sstate) : list nat :=
    map eid (s_ready s) ++ map eid (s_timers s) ++ map t_id (s_local s) ++ map t_id (flat_map p_wait (s_pc s)) ++ map t_id (flat_map p_run (s_pc s)).
  Lemma bids_ids : forall s, bids (babs s) = ids s.
  Proof.
    intro s. unfold bids, btasks, babs, bag, running, ids, tids, eid. cbn [b_bag b_run]. rewrite <- map_app, map_map. cbn [core at_tp t_id].
    rewrite !map_app, !map_map, <- !app_assoc. reflexivity.
  Qed.
  Lemma ids_inv : forall t0 tr s, s_exec t0 tr s -> NoDup (ids s) /\ (forall i, In i (ids s) -> (i < s_next s)%nat) /\
    (forall t e i, In (t, e) tr -> id_of e = Some i -> (i < s_next s)%nat).
  Proof.
    intros t0 tr s X. destruct (exec_all _ _ _ X) as (_ & _ & B). destruct (b_idinv _ _ _ _ B) as [ND LT EV _ _].
    rewrite bids_ids in ND. split; auto. split; auto. intros i I. apply LT. now rewrite bids_ids.
  Qed.

  (** ** Order *)
  Definition drop_id (i : nat) (l : list nat) : list nat := filter (fun x => negb (Nat.eqb x i)) l.
  Lemma drop_none : forall i l, ~ In i l -> drop_id i l = l.
  Proof.
    induction l as [|x l IH]; intro N; auto. cbn. destruct (Nat.eqb_spec x i) as [->|]; [exfalso; apply N; now left|]. cbn. f_equal. apply IH. intro J. apply N. now right.
  Qed.
  Lemma drop_snoc : forall i l, ~ In i l -> drop_id i (l ++ [i]) = l.
  Proof. intros i l N. unfold drop_id. rewrite filter_app. cbn. rewrite Nat.eqb_refl. cbn. rewrite app_nil_r. now apply drop_none. Qed.
  Lemma drop_head : forall i l, ~ In i l -> drop_id i (i :: l) = l.
  Proof. intros i l N. unfold drop_id. cbn. rewrite Nat.eqb_refl. cbn. now apply drop_none. Qed.

  Definition rest1 (l : list nat) (e : ltev) := ready1 l e.
  Lemma readyq_app : forall tr ls, readyq (tr ++ ls) = fold_left ready1 ls (readyq tr).
  Proof. intros. unfold readyq. now rewrite fold_left_app. Qed.

  Lemma act_ready : forall b s a s' ls, s_act b s a = (s', ls) -> (forall i, In i (map eid (s_ready s)) -> (i < s_next s)%nat) ->
    fold_left ready1 ls (map eid (s_ready s)) = map eid (s_ready s').
  Proof.
    intros b s a s' ls E LT. assert (NI : ~ In (s_next s) (map eid (s_ready s))) by (intro J; specialize (LT _ J); lia).
    destruct a as [d code h|tp code h|d code h|h]; cbn [StrandModel.s_act] in E; unfold s_post, s_timer in E.
    - destruct (d =? 0) eqn:Z0.
      + apply Z.eqb_eq in Z0. subst d. destruct (dead _ _); injection E as <- <-; cbn [fold_left ready1 snd fst];
          replace (s_now s + 0 =? s_now s) with true by (symmetry; apply Z.eqb_eq; lia).
        * apply drop_snoc. exact NI.
        * cbn. rewrite map_app. reflexivity.
      + apply Z.eqb_neq in Z0. destruct (dead _ _); injection E as <- <-; cbn [fold_left ready1 snd fst];
          replace (s_now s + d =? s_now s) with false by (symmetry; apply Z.eqb_neq; lia); apply drop_none; exact NI.
    - destruct (dead _ _); injection E as <- <-; cbn [fold_left ready1 snd fst]; destruct (tp =? s_now s); (apply drop_snoc || apply drop_none); exact NI.
    - destruct b; [|injection E as <- <-; reflexivity]. destruct (dead _ _); injection E as <- <-; cbn [fold_left ready1 snd fst]; auto. apply drop_none. exact NI.
    - injection E as <- <-. reflexivity.
  Qed.

  Lemma ready_inv : forall t0 tr s, s_exec t0 tr s -> readyq tr = map eid (s_ready s).
  Proof.
    intros t0 tr s X. induction X as [|tr s m ls s' X IH E]; [reflexivity|]. rewrite readyq_app, IH. clear IH.
    destruct (ids_inv _ _ _ X) as (ND & LT & _). destruct (exec_all _ _ _ X) as (_ & SH & _).
    assert (LTR : forall i, In i (map eid (s_ready s)) -> (i < s_next s)%nat) by (intros i J; apply LT; unfold ids; apply in_or_app; auto).
    destruct m as [d|a|i| |]; cbn [StrandModel.s_move] in E.
    - injection E as <- <-. reflexivity.
    - destruct (s_act false s a) as [s1 l1] eqn:F. injection E as <- <-. eapply act_ready; eauto.
    - destruct (nth_error _ _) as [e|] eqn:N; [|discriminate]. destruct (_ && _); [|discriminate]. injection E as <- <-. cbn. now rewrite map_app.
    - destruct (s_pc s) as [|] eqn:PC; [|discriminate]. destruct (s_ready s) as [|e r] eqn:R; [discriminate|].
      assert (NI : ~ In (eid e) (map eid r)).
      { unfold ids in ND. rewrite R in ND. cbn in ND. inversion ND as [|? ? NI _]; subst. intro J. apply NI. apply in_or_app. auto. }
      destruct (dead _ _); [|destruct (beh _ _) as [acts res]]; injection E as <- <-; cbn [fold_left ready1 snd fst s_ready]; apply drop_head; exact NI.
    - destruct (s_pc s) as [|it pc] eqn:PC; [discriminate|].
      destruct it as [a|e r|e x|].
      + destruct (s_act true _ a) as [s1 l1] eqn:F. injection E as <- <-. apply (act_ready _ _ _ _ _ F). exact LTR.
      + destruct r as [| |v]; unfold s_ret in E; [injection E as <- <-; reflexivity | destruct (e_cur e); injection E as <- <-; reflexivity | injection E as <- <-; reflexivity].
      + assert (NI : ~ In (eid e) (map eid (s_ready s))).
        { unfold ids in ND. rewrite PC in ND. cbn [flat_map p_wait map app] in ND. do 2 rewrite app_assoc in ND.
          apply NoDup_remove_2 in ND. intro J. apply ND. rewrite !in_app_iff. auto. }
        unfold s_timer in E. destruct (dead _ _); injection E as <- <-; cbn; apply drop_none; exact NI.
      + destruct (s_local s) as [|t q] eqn:L; [injection E as <- <-; reflexivity|].
        assert (NI : ~ In (t_id t) (map eid (s_ready s))).
        { unfold ids in ND. rewrite L in ND. cbn [map app] in ND. rewrite app_assoc in ND.
          apply NoDup_remove_2 in ND. intro J. apply ND. rewrite !in_app_iff. auto. }
        destruct (dead _ _); injection E as <- <-; cbn; auto. apply drop_none; exact NI.
  Qed.

  (** A handler is started when none runs, and it is the one ready for longest. *)
  Lemma s_start : forall t0 tr s, s_exec t0 tr s -> forall a t id b, tr = a ++ (t, LStart id) :: b -> in_run a = [] /\ exists l, readyq a = id :: l.
  Proof.
    intros t0 tr s X a t id b E. destruct (s_locate _ _ _ X _ _ _ E) as (tr1 & s1 & m & ls & s2 & l1 & l2 & X1 & M & -> & -> & _ & _).
    assert (PC : l1 = [] /\ s_pc s1 = [] /\ exists e r, s_ready s1 = e :: r /\ eid e = id).
    { assert (NA : forall b s a s', s_act b s a <> (s', l1 ++ (t, LStart id) :: l2)).
      { clear. intros b s a s' E. destruct a as [d code h|tp code h|d code h|h]; cbn [StrandModel.s_act] in E; unfold s_post, s_timer in E;
          repeat match type of E with context [if ?c then _ else _] => destruct c end; injection E as <- E;
          repeat (destruct l1 as [|? l1]; cbn in E; [discriminate|]; injection E as <- E); try (destruct l1; discriminate). }
      destruct m as [d|a|i| |]; cbn [StrandModel.s_move] in M.
      - injection M as _ M. destruct l1; discriminate.
      - destruct (s_act false s1 a) as [s3 l3] eqn:F. injection M as -> ->. contradiction (NA _ _ _ _ F).
      - destruct (nth_error _ _) as [e|] eqn:N; [|discriminate]. destruct (_ && _); [|discriminate]. injection M as _ M. destruct l1 as [|? [|]]; discriminate.
      - destruct (s_pc s1) as [|] eqn:PC; [|discriminate]. destruct (s_ready s1) as [|e r] eqn:R; [discriminate|].
        destruct (dead _ _); [|destruct (beh _ _) as [acts res]]; injection M as _ M; destruct l1 as [|? [|]]; try discriminate.
        injection M as _ <- _. repeat split; eauto.
      - destruct (s_pc s1) as [|it pc] eqn:PC; [discriminate|].
        destruct it as [a|e r|e x|].
        + destruct (s_act true _ a) as [s3 l3] eqn:F. injection M as -> ->. contradiction (NA _ _ _ _ F).
        + destruct r as [| |v]; unfold s_ret in M; [injection M as _ M | destruct (e_cur e); injection M as _ M | injection M as _ M]; destruct l1 as [|? [|? [|]]]; discriminate.
        + unfold s_timer in M. destruct (dead _ _); injection M as _ M; destruct l1 as [|? [|]]; discriminate.
        + destruct (s_local s1) as [|t1 q]; [injection M as _ M; destruct l1; discriminate|]. destruct (dead _ _); injection M as _ M; destruct l1 as [|? [|]]; discriminate. }
    destruct PC as (-> & PC & e & r & R & EI). rewrite app_nil_r. destruct (exec_all _ _ _ X1) as (_ & _ & B). split.
    - destruct (in_run tr1) as [|i l] eqn:IR; auto. exfalso.
      assert (J : In i (in_run tr1)) by (rewrite IR; now left). apply (b_inrun _ _ _ _ B) in J. unfold babs, running in J. cbn [b_run] in J. now rewrite PC in J.
    - exists (map eid r). rewrite (ready_inv _ _ _ X1), R. cbn. now rewrite EI.
  Qed.

  (** ** Who submitted a task *)
  Definition via_ok (tr : list ltev) (e : entry) : Prop := if e_cur e then by_nested tr (eid e) else by_worker tr (eid e).
  Definition p_via (tr : list ltev) (i : pitem) : Prop := match i with PRet e _ | PTimer e _ => via_ok tr e | _ => True end.
  Definition VInv (tr : list ltev) (s : sstate) : Prop :=
    Forall (via_ok tr) (s_ready s) /\ Forall (via_ok tr) (s_timers s) /\ Forall (fun t => by_nested tr (t_id t)) (s_local s) /\ Forall (p_via tr) (s_pc s).
  Lemma by_worker_app : forall tr ls i, by_worker tr i -> by_worker (tr ++ ls) i.
  Proof. intros tr ls i (h & k & x & H). exists h, k, x. apply happened_app. auto. Qed.
  Lemma by_nested_app : forall tr ls i, by_nested tr i -> by_nested (tr ++ ls) i.
  Proof. intros tr ls i (h & k & x & H). exists h, k, x. apply happened_app. auto. Qed.
  Lemma via_app : forall tr ls e, via_ok tr e -> via_ok (tr ++ ls) e.
  Proof. intros tr ls e. unfold via_ok. destruct (e_cur e); [apply by_nested_app | apply by_worker_app]. Qed.
  Lemma vinv_app : forall tr ls s, VInv tr s -> VInv (tr ++ ls) s.
  Proof.
    intros tr ls s (A & B & C & D). repeat split.
    - eapply Forall_impl; [|exact A]. intro. apply via_app.
    - eapply Forall_impl; [|exact B]. intro. apply via_app.
    - eapply Forall_impl; [|exact C]. intro. apply by_nested_app.
    - eapply Forall_impl; [|exact D]. intros [] V; cbn in *; auto; now apply via_app.
  Qed.
  Lemma timer_via : forall tr s e x s' ls, VInv tr s -> via_ok tr e -> s_timer s e x = (s', ls) -> VInv tr s'.
  Proof.
    intros tr s e x s' ls (A & B & C & D) V E. unfold s_timer in E. destruct (dead _ _); injection E as <- <-; repeat split; auto; cbn.
    apply Forall_app. split; auto.
  Qed.
  Lemma post_via : forall tr s e s' ls, VInv tr s -> via_ok tr e -> s_post s e = (s', ls) -> VInv tr s'.
  Proof.
    intros tr s e s' ls (A & B & C & D) V E. unfold s_post in E. destruct (dead _ _); injection E as <- <-; repeat split; auto; cbn.
    apply Forall_app. split; auto.
  Qed.
  Lemma act_via : forall tr b s a s' ls, VInv tr s -> s_act b s a = (s', ls) -> VInv (tr ++ ls) s'.
  Proof.
    intros tr b s a s' ls V E. apply (vinv_app _ ls) in V. destruct a as [d code h|tp code h|d code h|h]; cbn [StrandModel.s_act] in E.
    - destruct (if d =? 0 then _ else _) as [s1 l1] eqn:F. injection E as <- <-.
      assert (W : by_worker (tr ++ (s_now s, LCall VWorker (s_next s) h (kind code) (s_now s + d)) :: l1) (s_next s)).
      { do 3 eexists. eexists. apply in_or_app. right. now left. }
      destruct (d =? 0); [eapply post_via; [| |exact F] | eapply timer_via; [| |exact F]]; auto.
    - destruct (s_timer _ _ _) as [s1 l1] eqn:F. injection E as <- <-.
      assert (W : by_worker (tr ++ (s_now s, LCall VWorker (s_next s) h (kind code) tp) :: l1) (s_next s)).
      { do 3 eexists. eexists. apply in_or_app. right. now left. }
      eapply timer_via; [| |exact F]; auto.
    - destruct b; [|injection E as <- <-; exact V]. destruct (dead _ _); injection E as <- <-; [exact V|].
      destruct V as (A & B & C & D). repeat split; auto. cbn. apply t_ins_forall; auto.
      do 3 eexists. eexists. apply in_or_app. right. now left.
    - injection E as <- <-. exact V.
  Qed.
  Lemma via_inv : forall t0 tr s, s_exec t0 tr s -> VInv tr s.
  Proof.
    intros t0 tr s X. induction X as [|tr s m ls s' X V E]; [repeat split; constructor|].
    destruct m as [d|a|i| |]; cbn [StrandModel.s_move] in E.
    - injection E as <- <-. now apply vinv_app.
    - destruct (s_act false s a) as [s1 l1] eqn:F. injection E as <- <-. eapply act_via; eauto.
    - destruct (nth_error _ _) as [e|] eqn:N; [|discriminate]. destruct (_ && _); [|discriminate]. injection E as <- <-. apply vinv_app.
      destruct V as (A & B & C & D). repeat split; auto; cbn.
      + apply Forall_app. split; auto. constructor; auto. rewrite Forall_forall in B. apply B. eapply nth_error_In; eauto.
      + rewrite Forall_forall in *. intros x J. apply B. eapply del_in; eauto.
    - destruct (s_pc s) as [|] eqn:PC; [|discriminate]. destruct (s_ready s) as [|e r] eqn:R; [discriminate|].
      destruct V as (A & B & C & D). rewrite R in A. inversion A as [|? ? A1 A2]; subst.
      destruct (dead _ _); [|destruct (beh _ _) as [acts res]]; injection E as <- <-; apply vinv_app; repeat split; auto; cbn; try constructor.
      apply Forall_app. split; [|constructor; [exact A1 | constructor; [exact Logic.I | constructor]]].
      apply Forall_forall. intros x J. apply in_map_iff in J. destruct J as (a & <- & _). exact Logic.I.
    - destruct (s_pc s) as [|it pc] eqn:PC; [discriminate|]. assert (V0 := V). destruct V as (A & B & C & D). rewrite PC in D. inversion D as [|? ? D1 D2]; subst.
      assert (W : VInv tr (s_with s pc)) by (repeat split; auto).
      destruct it as [a|e r|e x|].
      + destruct (s_act true _ a) as [s1 l1] eqn:F. injection E as <- <-. eapply act_via; eauto.
      + destruct (s_ret _ _ _ _) as [its l1] eqn:F. injection E as <- <-. apply vinv_app. repeat split; auto. cbn. apply Forall_app. split; auto.
        unfold s_ret in F. destruct r as [| |v]; [injection F as <- <-; constructor | | injection F as <- <-; constructor; [exact D1 | constructor]].
        destruct (e_cur e); injection F as <- <-; [|constructor]. apply Forall_forall. intros x J. apply in_map_iff in J. destruct J as (a & <- & _). exact Logic.I.
      + destruct (s_timer _ _ _) as [s1 l1] eqn:F. injection E as <- <-. apply vinv_app. eapply timer_via; [exact W | exact D1 | exact F].
      + destruct (s_local s) as [|t q] eqn:L; [injection E as <- <-; now apply vinv_app|]. inversion C as [|? ? C1 C2]; subst.
        destruct (dead _ _); injection E as <- <-; apply vinv_app; repeat split; auto; cbn; [now rewrite PC|].
        constructor; [exact C1 | constructor; [exact Logic.I | exact D2]].
  Qed.

  (** ** Errors *)
  Lemma two_split : forall A (x y z : A) l1 l2, [x; y] = l1 ++ z :: l2 -> (l1 = [] /\ z = x /\ l2 = [y]) \/ (l1 = [x] /\ z = y /\ l2 = []).
  Proof. intros A x y z [|a [|b l1]] l2 E; cbn in E; injection E; intros; subst; auto. destruct l1; discriminate. Qed.
  Lemma one_split : forall A (x z : A) l1 l2, [x] = l1 ++ z :: l2 -> l1 = [] /\ z = x /\ l2 = [].
  Proof. intros A x z [|a l1] l2 E; cbn in E; injection E; intros; subst; auto. destruct l1; discriminate. Qed.

  (** The events of a move. *)
  Definition ev_ok (tr : list ltev) (s : sstate) (x : ltev) (l1 l2 : list ltev) : Prop :=
    match snd x with
    | LErr id h => fst x = s_now s /\ l1 = [(s_now s, LEnd id RThrow)] /\ by_nested tr id /\ exists e r pc, s_pc s = PRet e r :: pc /\ eid e = id /\ t_h (e_t e) = h
    | LEnd id RThrow => fst x = s_now s /\ l1 = [] /\ exists e r pc, s_pc s = PRet e r :: pc /\ eid e = id /\
        ((by_nested tr id /\ l2 = [(s_now s, LErr id (t_h (e_t e)))]) \/ (by_worker tr id /\ l2 = []))
    | LAgain id tp => by_worker tr id \/ (by_worker l1 id) \/ (by_nested tr id /\ exists e x pc, s_pc s = PTimer e x :: pc /\ eid e = id /\ t_due (e_t e) = tp /\ l1 = [])
    | _ => True
    end.
  Lemma act_ev : forall b s a s' ls, s_act b s a = (s', ls) -> forall l1 x l2, ls = l1 ++ x :: l2 ->
    match snd x with LErr _ _ | LEnd _ _ => False | LAgain id _ => by_worker l1 id | _ => True end.
  Proof.
    intros b s a s' ls E l1 x l2 EQ. destruct a as [d code h|tp code h|d code h|h]; cbn [StrandModel.s_act] in E; unfold s_post, s_timer in E;
      repeat match type of E with context [if ?c then _ else _] => destruct c end; injection E as <- <-;
      try (apply two_split in EQ; destruct EQ as [(-> & -> & ->) | (-> & -> & ->)]; cbn; auto);
      try (apply one_split in EQ; destruct EQ as (-> & -> & ->); cbn; auto);
      try (destruct l1; discriminate).
    all: do 3 eexists; eexists; left; reflexivity.
  Qed.
  Lemma move_ev : forall t0 tr s m s' ls, s_exec t0 tr s -> s_move s m = Some (s', ls) -> forall l1 x l2, ls = l1 ++ x :: l2 -> ev_ok tr s x l1 l2.
  Proof.
    intros t0 tr s m s' ls X E l1 x l2 EQ. pose proof (via_inv _ _ _ X) as (_ & _ & _ & V). destruct (exec_all _ _ _ X) as (I & _ & _).
    destruct m as [d|a|i| |]; cbn [StrandModel.s_move] in E.
    - injection E as <- <-. destruct l1; discriminate.
    - destruct (s_act false s a) as [s1 l3] eqn:F. injection E as <- <-. pose proof (act_ev _ _ _ _ _ F _ _ _ EQ) as W. unfold ev_ok. destruct (snd x); auto; contradiction.
    - destruct (nth_error _ _) as [e|] eqn:N; [|discriminate]. destruct (_ && _); [|discriminate]. injection E as <- <-.
      apply one_split in EQ; destruct EQ as (-> & -> & ->); cbn; auto.
    - destruct (s_pc s) as [|] eqn:PC; [|discriminate]. destruct (s_ready s) as [|e r] eqn:R; [discriminate|].
      destruct (dead _ _); [|destruct (beh _ _) as [acts res]]; injection E as <- <-; apply one_split in EQ; destruct EQ as (-> & -> & ->); cbn; auto.
    - destruct (s_pc s) as [|it pc] eqn:PC; [discriminate|]. pose proof (Forall_inv V) as V1.
      pose proof (i_pc _ I) as IP. rewrite PC in IP. pose proof (Forall_inv IP) as IP1.
      destruct it as [a|e r|e y|].
      + destruct (s_act true _ a) as [s1 l3] eqn:F. injection E as <- <-. pose proof (act_ev _ _ _ _ _ F _ _ _ EQ) as W. unfold ev_ok. destruct (snd x); auto; contradiction.
      + cbn in V1. unfold via_ok in V1. destruct r as [| |v]; unfold s_ret in E.
        * injection E as <- <-. apply one_split in EQ; destruct EQ as (-> & -> & ->); cbn; auto.
        * destruct (e_cur e) eqn:C; injection E as <- <-.
          -- apply two_split in EQ; destruct EQ as [(-> & -> & ->) | (-> & -> & ->)]; cbn; split; auto.
             ++ split; auto. exists e, RThrow, pc. repeat split; auto.
             ++ split; auto. split; auto. rewrite PC. eauto 6.
          -- apply one_split in EQ; destruct EQ as (-> & -> & ->); cbn. repeat split; auto. exists e, RThrow, pc. repeat split; auto.
        * injection E as <- <-. apply one_split in EQ; destruct EQ as (-> & -> & ->); cbn; auto.
      + cbn in V1. unfold via_ok in V1. unfold s_timer in E. destruct (dead _ _); injection E as <- <-; apply one_split in EQ; destruct EQ as (-> & -> & ->); cbn; auto.
        destruct (e_cur e) eqn:C; auto. right. right. split; auto. exists e, y, pc. repeat split; auto.
        destruct y; cbn in IP1; intuition congruence.
      + destruct (s_local s) as [|t q] eqn:L; [injection E as <- <-; destruct l1; discriminate|].
        destruct (dead _ _); injection E as <- <-; [|destruct l1; discriminate]. apply one_split in EQ; destruct EQ as (-> & -> & ->); cbn; auto.
  Qed.

  (** ** Timers of the worker's tasks *)
  Definition timer_pc (tr : list ltev) (i : pitem) : Prop :=
    match i with
    | PTimer e x => e_cur e = false -> intervals tr (eid e) <> [] /\ forall r, requested tr (eid e) = Some r ->
        match x with
        | At tp => t_k (e_t e) = KTo /\ tp = t_due (e_t e)
        | Within d => t_k (e_t e) <> KTo /\ (t_k (e_t e) = KNow -> t_due (e_t e) = r + d) /\ (t_k (e_t e) = KThis -> exists l, intervals tr (eid e) = l ++ [d])
        end
    | _ => True
    end.
  Lemma timer_same : forall tr tr' i, timer_pc tr i -> (forall j, In j (map t_id (p_wait i)) -> same tr tr' j) -> timer_pc tr' i.
  Proof.
    intros tr tr' i H S. destruct i as [a|e r|e x|]; auto. cbn in *. destruct (S (eid e)) as (A & _ & C); [now left|]. rewrite A, C. exact H.
  Qed.
  Lemma timers_same : forall tr tr' pc, Forall (timer_pc tr) pc -> (forall j, In j (map t_id (flat_map p_wait pc)) -> same tr tr' j) -> Forall (timer_pc tr') pc.
  Proof.
    intros tr tr' pc H S. rewrite Forall_forall in *. intros i I. apply (timer_same tr); auto. intros j J. apply S. apply in_map_iff in J. destruct J as (t & <- & J).
    apply in_map. apply in_flat_map. eauto.
  Qed.
  Lemma act_timers : forall tr b s a s' ls, s_act b s a = (s', ls) -> (forall j, In j (map t_id (flat_map p_wait (s_pc s))) -> (j < s_next s)%nat) ->
    Forall (timer_pc tr) (s_pc s) -> Forall (timer_pc (tr ++ ls)) (s_pc s').
  Proof.
    intros tr b s a s' ls E LT H. rewrite (proj1 (act_pc _ _ _ _ _ E)). apply (timers_same tr); auto. intros j J. specialize (LT _ J). apply same_quiet.
    destruct a as [d code h|tp code h|d code h|h]; cbn [StrandModel.s_act] in E; unfold s_post, s_timer in E;
      repeat match type of E with context [if ?c then _ else _] => destruct c end; injection E as <- <-; cbn; auto; destruct (Nat.eqb_spec (s_next s) j); auto; lia.
  Qed.
  Lemma timer_inv_exec : forall t0 tr s, s_exec t0 tr s -> Forall (timer_pc tr) (s_pc s).
  Proof.
    intros t0 tr s X. induction X as [|tr s m ls s' X IH E]; [constructor|].
    destruct (ids_inv _ _ _ X) as (ND & LT & _).
    assert (LW : forall j, In j (map t_id (flat_map p_wait (s_pc s))) -> (j < s_next s)%nat) by (intros j J; apply LT; unfold ids; rewrite !in_app_iff; tauto).
    destruct m as [d|a|i| |]; cbn [StrandModel.s_move] in E.
    - injection E as <- <-. rewrite app_nil_r. exact IH.
    - destruct (s_act false s a) as [s1 l1] eqn:F. injection E as <- <-. eapply act_timers; eauto.
    - destruct (nth_error _ _) as [e|] eqn:N; [|discriminate]. destruct (_ && _); [|discriminate]. injection E as <- <-. cbn.
      apply (timers_same tr); auto. intros. now apply same_quiet.
    - destruct (s_pc s) as [|] eqn:PC; [|discriminate]. destruct (s_ready s) as [|e r] eqn:R; [discriminate|].
      destruct (dead _ _); [|destruct (beh _ _) as [acts res]]; injection E as <- <-; cbn; [constructor|].
      apply Forall_app. split; [|repeat constructor]. apply Forall_forall. intros x J. apply in_map_iff in J. destruct J as (a & <- & _). exact Logic.I.
    - destruct (s_pc s) as [|it pc] eqn:PC; [discriminate|]. pose proof (Forall_inv IH) as I1. pose proof (Forall_inv_tail IH) as I2.
      assert (LW2 : forall j, In j (map t_id (flat_map p_wait pc)) -> (j < s_next s)%nat) by (intros j J; apply LW; cbn; rewrite map_app, in_app_iff; auto).
      destruct it as [a|e r|e x|].
      + destruct (s_act true _ a) as [s1 l1] eqn:F. injection E as <- <-. eapply act_timers; [exact F | exact LW2 | exact I2].
      + destruct (s_ret _ _ _ _) as [its l1] eqn:F. injection E as <- <-. cbn [s_with s_pc].
        assert (NI : ~ In (eid e) (map t_id (flat_map p_wait pc))).
        { intro J. unfold ids in ND. rewrite PC in ND. cbn [flat_map p_wait p_run app map] in ND. rewrite !app_assoc in ND. apply NoDup_remove_2 in ND. apply ND.
          rewrite !in_app_iff. tauto. }
        assert (TL : Forall (timer_pc (tr ++ l1)) pc).
        { apply (timers_same tr); auto. intros j J. apply same_quiet.
          unfold s_ret in F. destruct r; [|destruct (e_cur e)|]; injection F as <- <-; cbn; fold (eid e); destruct (Nat.eqb_spec (eid e) j); auto; subst; contradiction. }
        apply Forall_app. split; auto. unfold s_ret in F. destruct r as [| |v].
        * injection F as <- <-. constructor.
        * destruct (e_cur e); injection F as <- <-; [|constructor]. apply Forall_forall. intros x J. apply in_map_iff in J. destruct J as (a & <- & _). exact Logic.I.
        * injection F as <- <-. constructor; [|constructor]. cbn. intro C. rewrite C. unfold eid. cbn.
          unfold intervals. rewrite flat_map_app. cbn. rewrite Nat.eqb_refl. split; [destruct (flat_map _ tr); discriminate|].
          intros r R. rewrite requested_app in R. cbn in R. rewrite Nat.eqb_refl in R. injection R as <-.
          unfold next_due. destruct (t_k (e_t e)).
          -- split; [discriminate|]. split; [reflexivity | discriminate].
          -- split; [discriminate|]. split; [discriminate | eauto].
          -- split; reflexivity.
      + unfold s_timer in E. destruct (dead _ _); injection E as <- <-; cbn; (apply (timers_same tr); [exact I2 | intros; now apply same_quiet]).
      + destruct (s_local s) as [|t q] eqn:L; [injection E as <- <-; rewrite app_nil_r; exact I2|].
        destruct (dead _ _); injection E as <- <-; cbn.
        * rewrite PC. apply (timers_same tr); [exact IH | intros; now apply same_quiet].
        * rewrite app_nil_r. constructor; [discriminate | constructor; [exact Logic.I | exact I2]].
  Qed.
  Definition new_timer (s : sstate) (t : Z) (id : nat) (tp : Z) (l1 l2 : list ltev) : Prop :=
    t = s_now s /\
    ((l1 = [] /\ exists e x pc, s_pc s = PTimer e x :: pc /\ eid e = id /\ tp = match x with Within d => t + d | At y => y end) \/
     exists h k, id = s_next s /\ l1 = [(s_now s, LCall VWorker id h k tp)]).
  Lemma again_ev : forall s m s' ls, s_move s m = Some (s', ls) -> forall l1 t id tp l2, ls = l1 ++ (t, LAgain id tp) :: l2 -> new_timer s t id tp l1 l2.
  Proof.
    intros s m s' ls E l1 t id tp l2 EQ.
    assert (ACT : forall b s0 a s1 l0, s_act b s0 a = (s1, l0) -> s_now s0 = s_now s -> s_next s0 = s_next s -> l0 = l1 ++ (t, LAgain id tp) :: l2 -> new_timer s t id tp l1 l2).
    { clear E EQ. intros b s0 a s1 l0 F N1 N2 Q. destruct a as [d code h|tp0 code h|d code h|h]; cbn [StrandModel.s_act] in F; unfold s_post, s_timer in F;
        repeat match type of F with context [if ?c then _ else _] => destruct c end; injection F as <- <-;
        try (apply two_split in Q; destruct Q as [(-> & Q & ->) | (-> & Q & ->)]); try (apply one_split in Q; destruct Q as (-> & Q & ->)); try discriminate; try (destruct l1; discriminate);
        injection Q as -> -> ->; cbn in *; (split; [auto|]); right; rewrite <- N1, <- N2; do 2 eexists; split; reflexivity. }
    destruct m as [d|a|i| |]; cbn [StrandModel.s_move] in E.
    - injection E as <- <-. destruct l1; discriminate.
    - destruct (s_act false s a) as [s1 l3] eqn:F. injection E as <- <-. eapply ACT; eauto.
    - destruct (nth_error _ _) as [e|] eqn:N; [|discriminate]. destruct (_ && _); [|discriminate]. injection E as <- <-.
      apply one_split in EQ; destruct EQ as (-> & EQ & ->); discriminate.
    - destruct (s_pc s) as [|] eqn:PC; [|discriminate]. destruct (s_ready s) as [|e r] eqn:R; [discriminate|].
      destruct (dead _ _); [|destruct (beh _ _) as [acts res]]; injection E as <- <-; apply one_split in EQ; destruct EQ as (-> & EQ & ->); discriminate.
    - destruct (s_pc s) as [|it pc] eqn:PC; [discriminate|]. destruct it as [a|e r|e y|].
      + destruct (s_act true _ a) as [s1 l3] eqn:F. injection E as <- <-. eapply ACT; eauto.
      + destruct r as [| |v]; unfold s_ret in E; [|destruct (e_cur e)|]; injection E as <- <-; try (apply two_split in EQ; destruct EQ as [(_ & EQ & _) | (_ & EQ & _)]); try (apply one_split in EQ; destruct EQ as (_ & EQ & _)); discriminate.
      + unfold s_timer in E. destruct (dead _ _); injection E as <- <-; apply one_split in EQ; destruct EQ as (-> & EQ & ->); [discriminate|].
        injection EQ as -> -> ->. split; auto. left. split; auto. exists e, y, pc. repeat split; auto.
      + destruct (s_local s) as [|t1 q] eqn:L; [injection E as <- <-; destruct l1; discriminate|].
        destruct (dead _ _); injection E as <- <-; [|destruct l1; discriminate]. apply one_split in EQ; destruct EQ as (-> & EQ & ->); discriminate.
  Qed.
End P.
