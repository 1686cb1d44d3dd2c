(** C64: a blocking subscription returns when, and only when, it is over. *)
From Verif Require Import Base Concur BlockSpec BlockModel BlockProofs.

(** Whatever the source, the disposing threads and spurious wake-ups do: subscribe returns only
    after the terminal callback has returned or the subscription was disposed, and at most once. *)
Theorem C64_returns : forall V (es0 : list (ev V)) ts tr c, gexec bstep (b_start es0 ts) tr c ->
  blocks tr /\ length (filter is_return tr) <= 1.
Proof.
  intros V es0 ts tr c E. split; [exact (v_blocks _ _ _ (B_exec _ _ _ _ E))|]. pose proof (ret_once _ _ _ _ E). lia.
Qed.
Print Assumptions C64_returns.

(** It never hangs once the subscription is over: an execution that cannot go on has then finished,
    and subscribe has returned. *)
Theorem C64_no_hang : forall V (es0 : list (ev V)) ts tr c, gexec bstep (b_start es0 ts) tr c -> over tr ->
  (forall ls c', ~ gstep (bstep (V:=V)) c ls c') -> gfinished c /\ In JReturn tr.
Proof.
  intros V es0 ts tr c E O NS. pose proof (no_hang _ _ _ _ E O NS) as F. split; auto.
  pose proof (ret_once _ _ _ _ E) as R. rewrite (gfinished_concat c F) in R. cbn in R.
  destruct (filter is_return tr) as [|l r] eqn:FE; [discriminate|].
  assert (I : In l (filter is_return tr)) by (rewrite FE; now left). apply filter_In in I as (I & J).
  destruct l; try discriminate. exact I.
Qed.
Print Assumptions C64_no_hang.

(** With one source that respects the observable contract - emitting inside subscribe or from
    another thread - the callbacks run in order and subscribe returns after the last of them. *)
Theorem C64_all : forall V (es : list (ev V)) es0 ts n tr c, stream es ->
  es0 = es /\ ts = repeat [ASpur] n \/ es0 = [] /\ ts = map AEmit es :: repeat [ASpur] n ->
  gexec bstep (b_start es0 ts) tr c ->
  (exists r, filter (fun l => negb (is_return l)) tr ++ r = calls es) /\
  (forall a b, tr = a ++ JReturn :: b -> a = calls es /\ b = []).
Proof.
  intros V es es0 ts n tr c ST HS E.
  assert (QR : forall m, forallb (forallb quiet) (map (map bprog) (repeat [ASpur (V:=V)] m)) = true) by (induction m; auto).
  assert (EX : exists r, evs tr ++ r = calls es).
  { destruct (O_exec es _ tr c ST E) as (a & t & b & _ & _ & _ & OO); [|exact (O_out _ _ _ _ OO)].
    destruct HS as [(-> & ->)|(-> & ->)]; cbn [b_start snd fst map].
    - exists [], (map BEv es ++ [BChk]), (map (map bprog) (repeat [ASpur] n)). repeat split; auto.
      apply (OA es b_init [] [] es [BChk]); auto. discriminate.
    - exists [[BChk]], (map BEv es), (map (map bprog) (repeat [ASpur] n)). repeat split; auto.
      + now rewrite map_map.
      + rewrite <- (app_nil_r (map BEv es)). apply (OA es b_init [] [] es []); auto. discriminate. }
  split; [exact EX|]. intros a b ->. destruct EX as (r & EX).
  destruct (C64_returns _ _ _ _ _ E) as (BL & R1). specialize (BL a b eq_refl).
  rewrite filter_app, app_length in R1. cbn in R1.
  assert (NR : forall l : list (blab V), length (filter is_return l) = 0 -> evs l = l).
  { induction l as [|x l IH]; auto. unfold evs. cbn. destruct (is_return x) eqn:X; cbn; [discriminate|]. intro L. f_equal. now apply IH. }
  assert (EA : evs a = a) by (apply NR; lia). assert (EB : evs b = b) by (apply NR; lia).
  rewrite evs_app in EX. cbn in EX. fold (evs b) in EX. rewrite EA, EB, <- app_assoc in EX.
  assert (Z : b ++ r = []).
  { destruct BL as [I|(e & T & I)].
    - exfalso. apply (calls_nodisp es). rewrite <- EX. apply in_or_app. auto.
    - eapply calls_term; eauto. }
  rewrite Z, app_nil_r in EX. apply app_eq_nil in Z as (-> & _). auto.
Qed.
Print Assumptions C64_all.

(** After the return at most one callback per other thread still starts: the one whose thread
    had passed the check before the disposal. *)
Theorem C64_late_calls : forall V (es0 : list (ev V)) ts tr c, gexec bstep (b_start es0 ts) tr c ->
  forall a b, tr = a ++ JReturn :: b -> length (filter is_call b) <= length ts.
Proof. intros V es0 ts tr c E a b H. exact (late_calls _ _ _ _ E a b H). Qed.
Print Assumptions C64_late_calls.
(** That one cannot be excluded: disposed by another thread between the check and the call. *)
Theorem C64_late_call_refuted : ~ (forall V (es0 : list (ev V)) ts tr c, gexec bstep (b_start es0 ts) tr c ->
  forall a b, tr = a ++ JReturn :: b -> filter is_call b = []).
Proof.
  intro H. pose (ex := gtol (bstep (V:=nat)) [1;2;2;2;2;2;2;2;2;2;0;0;0;0;0;0;0;1;1] (b_start [] [[AEmit (Next 1)]; [ADispose]])).
  assert (E : gexec (bstep (V:=nat)) (b_start [] [[AEmit (Next 1)]; [ADispose]]) (fst ex) (snd ex)) by apply gtol_sound.
  specialize (H nat _ _ _ _ E [JDispose] [JCall (Next 1); JRet (Next 1)]).
  assert (T : fst ex = [JDispose; JReturn; JCall (Next 1); JRet (Next 1)]) by (vm_compute; reflexivity).
  rewrite T in H. discriminate (H eq_refl).
Qed.
Print Assumptions C64_late_call_refuted.

(** Subscribing blockingly from inside a task of the current-thread scheduler hangs for ever: the
    emissions (C15) only run after that task, i.e. after subscribe, has returned. *)
Theorem C64_nested_refuted : ~ (forall V (es : list (ev V)) tr c, In Done es -> gexec bstep (b_init, [BChk :: map BEv es]) tr c ->
  (forall ls c', ~ gstep (bstep (V:=V)) c ls c') -> In JReturn tr).
Proof.
  intro H.
  destruct (grun (bstep (V:=nat)) [0; 0; 0] (b_init, [[BChk; BEv (Next 1); BEv Done]])) as [[tr c]|] eqn:R; [|vm_compute in R; discriminate].
  pose proof (grun_sound _ _ _ _ _ R) as E. vm_compute in R. inversion R; subst.
  refine (H nat [Next 1; Done] _ _ _ E _); [right; now left|].
  assert (N : forall c ls c', gstep (bstep (V:=nat)) c ls c' -> fst c = BS false false false false false -> snd c = [[BWait; BEv (Next 1); BEv Done]] -> False).
  { intros c ls c' G. destruct G as [s ts1 it rest ts2 s' its ls' Q]. cbn. intros -> T.
    destruct ts1 as [|t1 [|t2 ts1]]; cbn in T; inversion T; subst. discriminate. }
  intros ls c' G. exact (N _ _ _ G eq_refl eq_refl).
Qed.
Print Assumptions C64_nested_refuted.

(** An asynchronous source and two spurious wake-ups, one of them while waiting. *)
Example C64_ex : exists tr c,
  gexec bstep (b_start [] [map AEmit [Next 1; Done]; [ASpur]; [ASpur]]) tr c /\ gfinished c /\
  tr = calls [Next 1; Done] ++ [JReturn].
Proof.
  destruct (gtol (bstep (V:=nat)) [0;0;0;2;0;0;0;1;1;1;3;0;0;0;1;1;1;1;1;1;1;1;1;1;1;0;0;0;0;0;0] (b_start [] [map AEmit [Next 1; Done]; [ASpur]; [ASpur]])) as [tr c] eqn:R.
  exists tr, c. pose proof (gtol_sound (bstep (V:=nat)) [0;0;0;2;0;0;0;1;1;1;3;0;0;0;1;1;1;1;1;1;1;1;1;1;1;0;0;0;0;0;0] (b_start [] [map AEmit [Next 1; Done]; [ASpur]; [ASpur]])) as E.
  rewrite R in E. split; [exact E|]. vm_compute in R. inversion R; subst. split; [|reflexivity].
  intros t I. cbn in I. intuition.
Qed.
(** Disposed by another thread while the source is silent. *)
Example C64_ex_dispose : exists tr c,
  gexec bstep (b_start [Next 1] [[ADispose]]) tr c /\ gfinished c /\ over tr /\ tr = calls [Next 1] ++ [JDispose; JReturn].
Proof.
  destruct (gtol (bstep (V:=nat)) [0;0;0;0;0;0;1;1;1;1;1;1;1;1;1;0;0;0;0;0;0] (b_start [Next 1] [[ADispose]])) as [tr c] eqn:R.
  exists tr, c. pose proof (gtol_sound (bstep (V:=nat)) [0;0;0;0;0;0;1;1;1;1;1;1;1;1;1;0;0;0;0;0;0] (b_start [Next 1] [[ADispose]])) as E.
  rewrite R in E. split; [exact E|]. vm_compute in R. inversion R; subst. split; [|split; [|reflexivity]].
  - intros t I. cbn in I. intuition.
  - left. cbn. auto.
Qed.
