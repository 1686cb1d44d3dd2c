(** Release of the sources of switch_on_next and concat (C69). *)
From Verif Require Import Base RelSpec ConcatModel RefModel RefProofs RefSwitch.

(** ** C69 *)

(** Once the result has ended and the calls in progress have returned, everything handed
    over by any source, outer or inner, has been disposed. *)
Theorem C69_all_released : forall op ms s tr i,
  qrun op q_init ms = (s, tr) -> qquiet s -> In LOver tr -> released tr i.
Proof. intros. eapply q_all_released; eauto. Qed.
Print Assumptions C69_all_released.

(** A source that has ended is released although the result goes on. *)
Theorem C69_ended_source_released : forall op ms s tr i,
  qrun op q_init ms = (s, tr) -> qquiet s -> In (LTerm i) tr -> released tr i.
Proof. intros. eapply q_ended_released; eauto. Qed.
Print Assumptions C69_ended_source_released.

(** switch_on_next releases every inner observable when a later one arrives. *)
Theorem C69_replaced_released : forall ms s tr i j,
  qrun QSwitch q_init ms = (s, tr) -> qquiet s -> In (LNew j) tr -> 0 < i < j -> released tr i.
Proof. intros. eapply q_replaced_released; eauto. Qed.
Print Assumptions C69_replaced_released.

(** With switch_on_next nothing is disposed whose source is still wanted. *)
Theorem C69_switch_not_early : forall ms s tr,
  qrun QSwitch q_init ms = (s, tr) -> not_early tr (finished_or_replaced tr).
Proof. intros. eapply q_not_early; eauto. Qed.
Print Assumptions C69_switch_not_early.

Definition qsteps (i n : nat) : list qmove := repeat (QStep i) n.

(** switch_on_next: the second inner observable arrives while the first is inside
    set_upstream; then the outer source completes, the second inner goes on until it
    completes too. *)
Definition c69_switch : list qmove :=
  [QBegin 0 (UUp 100)] ++ qsteps 0 1 ++ [QBegin 0 UInner] ++ qsteps 0 5 ++ [QBegin 1 (UUp 101)] ++ qsteps 1 1 ++
  [QBegin 1 (UUp 102); QBegin 0 UInner] ++ qsteps 0 7 ++ qsteps 1 2 ++ [QBegin 2 (UUp 103)] ++ qsteps 2 1 ++ [QBegin 0 UDone] ++ qsteps 0 15 ++
  [QBegin 2 (UNext false); QBegin 2 UDone] ++ qsteps 2 15.
Example C69_case_switch :
  let r := qrun QSwitch q_init c69_switch in
  snd r = [LUp 0 100; LNew 1; LUp 1 101; LUp 1 102; LNew 2; LRel 101; LRel 102; LUp 2 103; LTerm 0; LRel 100; LTerm 2; LRel 103; LOver] /\ qquiet (fst r).
Proof.
  split; [vm_compute; reflexivity|]. intro i. do 3 (destruct i as [|i]; [vm_compute; reflexivity|]). reflexivity.
Qed.

(** concat: two observables, the second waits for the first; the user unsubscribes while
    the second hands over a disposable. *)
Definition c69_concat : list qmove :=
  [QBegin 0 (UUp 100)] ++ qsteps 0 1 ++ [QBegin 0 UInner] ++ qsteps 0 15 ++ [QBegin 0 UInner] ++ qsteps 0 15 ++ [QBegin 1 (UUp 101)] ++ qsteps 1 2 ++
  [QBegin 0 UDone] ++ qsteps 0 15 ++ [QBegin 1 UDone] ++ qsteps 1 15 ++ [QBegin 2 (UUp 102); QBegin 9 UDisp] ++ qsteps 9 15 ++ qsteps 2 15.
Example C69_case_concat :
  let r := qrun QConcat q_init c69_concat in
  snd r = [LUp 0 100; LUp 1 101; LTerm 0; LRel 100; LTerm 1; LRel 101; LRel 101; LUp 2 102; LOver; LRel 102] /\ qquiet (fst r).
Proof.
  split; [vm_compute; reflexivity|]. intro i. do 10 (destruct i as [|i]; [vm_compute; reflexivity|]). reflexivity.
Qed.
