(** C01, C02, C03, C05: the observer contract. *)
From Verif Require Import Base ObserverSpec ObserverModel ObserverProofs ReentrantModel ReentrantProofs.

(** C01. For every callback behaviour, capacity and call sequence the fired callbacks
    follow the grammar ... *)
Theorem C01_grammar : forall (V : Type) (cb : list (ev V) -> V -> reaction) cap ox cs,
  grammatical (o_log (o_run cb cap ox o_init cs)).
Proof. exact @grammar_ok. Qed.
Print Assumptions C01_grammar.

(** ... nothing fires after a dispose or after a terminal callback ... *)
Theorem C01_nothing_after_end : forall (V : Type) (cb : list (ev V) -> V -> reaction) cap ox cs1 cs2,
  (In CDispose cs1 \/ has_terminal (o_log (o_run cb cap ox o_init cs1))) ->
  o_log (o_run cb cap ox o_init (cs1 ++ cs2)) = o_log (o_run cb cap ox o_init cs1).
Proof. exact @nothing_after. Qed.
Print Assumptions C01_nothing_after_end.

(** ... the delivered values are a prefix of the values pushed before the first
    terminal call or dispose, in order and unchanged ... *)
Theorem C01_values_in_order : forall (V : Type) (cb : list (ev V) -> V -> reaction) cap ox cs,
  prefix (log_values (o_log (o_run cb cap ox o_init cs))) (log_values (live_events cs)).
Proof. exact @values_prefix. Qed.
Print Assumptions C01_values_in_order.

(** ... and with a callback that never throws or unsubscribes exactly the live events
    are delivered. *)
Theorem C01_exact_delivery : forall (V : Type) (cb : list (ev V) -> V -> reaction) ox,
  well_behaved cb ->
  forall cs, o_log (o_run cb None ox o_init cs) = live_events cs.
Proof. intros V cb ox W. exact (exact_delivery cb None ox eq_refl W). Qed.
Print Assumptions C01_exact_delivery.

(** A callback that disposes its own subscription - and possibly throws afterwards - is the last
    callback that fires. *)
Theorem C01_dispose_inside : forall (V : Type) (cb : list (ev V) -> V -> reaction) cap ox cs1 v cs2,
  o_flag (o_run cb cap ox o_init cs1) = false ->
  (cb (o_log (o_run cb cap ox o_init cs1)) v = RDispose \/
   exists e, cb (o_log (o_run cb cap ox o_init cs1)) v = RDisposeThrow e) ->
  o_log (o_run cb cap ox o_init (cs1 ++ CEv (Next v) :: cs2)) = o_log (o_run cb cap ox o_init cs1) ++ [Next v].
Proof. exact @dispose_inside. Qed.
Print Assumptions C01_dispose_inside.

(** is_disposed() tells exactly whether the observer has ended: disposed from outside, a terminal
    callback has fired, or the last callback disposed the subscription. *)
Theorem C01_is_disposed : forall (V : Type) (cb : list (ev V) -> V -> reaction) cap ox cs,
  o_flag (o_run cb cap ox o_init cs) = true <->
  In CDispose cs \/ has_terminal (o_log (o_run cb cap ox o_init cs)) \/
  exists h v, o_log (o_run cb cap ox o_init cs) = h ++ [Next v] /\ (cb h v = RDispose \/ exists e, cb h v = RDisposeThrow e).
Proof. exact @is_disposed_iff. Qed.
Print Assumptions C01_is_disposed.

Definition ex_cb (h : list (ev nat)) (v : nat) : reaction :=
  if v =? 3 then RThrow 7 else if length h =? 4 then RDispose else RCont.
Definition ex_calls : list (call nat) :=
  [CUpstream 1; CEv (Next 1); CEv (Next 2); CEv (Next 3); CUpstream 2; CEv (Next 4); CEv Done; CDispose].

Example C01_ex_inside :
  o_flag (o_run (fun h v => if v =? 2 then RDisposeThrow 7 else RCont) None 99 o_init [CEv (Next 1)]) = false /\
  o_log (o_run (fun h v => if v =? 2 then RDisposeThrow 7 else RCont) None 99 o_init [CEv (Next 1); CEv (Next 2); CEv (Next 3); CEv Done]) =
    [Next 1; Next 2].
Proof. split; reflexivity. Qed.
Example C01_ex : o_log (o_run ex_cb None 99 o_init ex_calls) = [Next 1; Next 2; Next 3; Err 7].
Proof. reflexivity. Qed.
Example C01_ex_end : has_terminal (o_log (o_run ex_cb None 99 o_init ex_calls)).
Proof. right. exists 7. cbn. auto. Qed.
Example C01_ex_wb : well_behaved (fun (_ : list (ev nat)) _ => RCont) /\
  o_log (o_run (fun _ _ => RCont) None 99 o_init ex_calls) = [Next 1; Next 2; Next 3; Next 4; Done].
Proof. split; [intros h v|]; reflexivity. Qed.

(** C02. *)
Theorem C02_throw_becomes_one_error :
  forall (V : Type) (cb : list (ev V) -> V -> reaction) cap ox cs1 v e cs2,
  o_flag (o_run cb cap ox o_init cs1) = false ->
  cb (o_log (o_run cb cap ox o_init cs1)) v = RThrow e ->
  o_log (o_run cb cap ox o_init (cs1 ++ CEv (Next v) :: cs2)) =
  o_log (o_run cb cap ox o_init cs1) ++ [Next v; Err e].
Proof. exact @throw_one_error. Qed.
Print Assumptions C02_throw_becomes_one_error.

Example C02_ex :
  o_flag (o_run ex_cb None 99 o_init [CUpstream 1; CEv (Next 1); CEv (Next 2)]) = false /\
  ex_cb (o_log (o_run ex_cb None 99 o_init [CUpstream 1; CEv (Next 1); CEv (Next 2)])) 3 = RThrow 7.
Proof. split; reflexivity. Qed.

(** C03, observers with an unlimited upstream container: once ended, dispose() has been
    called on exactly the disposables given by set_upstream, each as often as given. *)
Theorem C03_all_released : forall (V : Type) (cb : list (ev V) -> V -> reaction) ox cs,
  (In CDispose cs \/ has_terminal (o_log (o_run cb None ox o_init cs))) ->
  o_rel (o_run cb None ox o_init cs) = upstreams cs.
Proof. intros V cb ox. exact (release_all cb None ox eq_refl). Qed.
Print Assumptions C03_all_released.

(** The same with is_disposed(), whatever ended the observer (C01_is_disposed): exactly then all of
    them are disposed, before that none is. *)
Theorem C03_released_iff : forall (V : Type) (cb : list (ev V) -> V -> reaction) ox cs,
  o_rel (o_run cb None ox o_init cs) = if o_flag (o_run cb None ox o_init cs) then upstreams cs else [].
Proof. intros V cb ox. exact (released_iff cb None ox eq_refl). Qed.
Print Assumptions C03_released_iff.

(** ... and none is disposed before that moment. *)
Theorem C03_not_released_early : forall (V : Type) (cb : list (ev V) -> V -> reaction) cap ox cs,
  (forall h v, cb h v <> RDispose /\ (forall e, cb h v <> RDisposeThrow e)) ->
  ~ In CDispose cs -> ~ has_terminal (o_log (o_run cb cap ox o_init cs)) ->
  o_rel (o_run cb cap ox o_init cs) = [].
Proof. exact @no_early_release. Qed.
Print Assumptions C03_not_released_early.

(** Fixed capacity n: the same as long as at most n upstreams are set. Missing: the
    claim for more than n upstreams, refuted below. *)
Theorem C03_fixed_capacity_partial : forall (V : Type) (cb : list (ev V) -> V -> reaction) ox n cs,
  length (upstreams cs) <= n ->
  (In CDispose cs \/ has_terminal (o_log (o_run cb (Some n) ox o_init cs))) ->
  o_rel (o_run cb (Some n) ox o_init cs) = upstreams cs.
Proof.
  intros V cb ox n cs L H.
  rewrite (capped_same cb (Some n) ox n cs o_init eq_refl L) in *.
  now apply (release_all cb None ox eq_refl).
Qed.
Print Assumptions C03_fixed_capacity_partial.

(** Finding: an upstream that does not fit into the fixed-capacity container is never
    disposed although the observer has ended (observer.hpp:57-65 reports the overflow
    through on_error but drops [d]). *)
Theorem C03_fixed_capacity_refuted :
  exists (cb : list (ev nat) -> nat -> reaction) ox cs d,
    In (CUpstream d) cs /\
    has_terminal (o_log (o_run cb (Some 1) ox o_init cs)) /\
    ~ In d (o_rel (o_run cb (Some 1) ox o_init cs)).
Proof.
  exists (fun _ _ => RCont), 99, [CUpstream 1; CUpstream 2], 2.
  cbn. repeat split; auto.
  - right. exists 99. now left.
  - intros [H|[]]; discriminate.
Qed.
Print Assumptions C03_fixed_capacity_refuted.

Example C03_ex :
  has_terminal (o_log (o_run ex_cb None 99 o_init ex_calls)) /\
  o_rel (o_run ex_cb None 99 o_init ex_calls) = [1; 2].
Proof. split; [exact C01_ex_end | reflexivity]. Qed.

(** C05. Full statement (false): for every re-entrant callback the grammar holds.
    Proved part: it holds when terminal callbacks do not call the observer again
    (on_next callbacks may re-enter in any way). *)
Theorem C05_reentrant_grammar_partial :
  forall (V : Type) (react : list (ev V) -> list (ev V)),
  (forall h t, is_term t = true -> react (h ++ [t]) = []) ->
  forall fuel l s', r_run react fuel (RState false []) l = Some s' -> grammatical (r_log s').
Proof. exact @reentrant_grammar. Qed.
Print Assumptions C05_reentrant_grammar_partial.

Definition ex_react (log : list (ev nat)) : list (ev nat) :=
  match rev log with Next 1 :: _ => [Next 5; Done; Next 6] | _ => [] end.
Example C05_ex_hyp : forall h t, is_term t = true -> ex_react (h ++ [t]) = [].
Proof. intros h [v|e|] H; try discriminate; unfold ex_react; rewrite rev_app_distr; reflexivity. Qed.
Example C05_ex_run : r_run ex_react 10 (RState false []) [Next 0; Next 1; Next 2] =
  Some (RState true [Next 0; Next 1; Next 5; Done]).
Proof. reflexivity. Qed.

(** Finding: a value pushed from inside on_completed is delivered after the completion. *)
Theorem C05_reentrant_terminal_refuted :
  exists (react : list (ev nat) -> list (ev nat)) l s',
    r_run react 3 (RState false []) l = Some s' /\ ~ grammatical (r_log s').
Proof.
  exists (fun log => match log with [Done] => [Next 1] | _ => [] end), [Done],
    (RState true [Done; Next 1]).
  split; [reflexivity|].
  intros (vs & t & E & T). cbn in E.
  destruct vs as [|v vs]; cbn in E; [|discriminate].
  destruct T as [->|[->|[e ->]]]; discriminate.
Qed.
Print Assumptions C05_reentrant_terminal_refuted.
