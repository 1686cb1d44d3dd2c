(** Release of the sources of operators with several sources (C68). *)
From Verif Require Import Base RelSpec RelModel RelProofs.

(** ** C68 *)

(** Once the result has ended (error, completion, unsubscription) and the calls in progress
    have returned, everything handed over by any source has been disposed - also what was
    handed over while the disposal was going on. *)
Theorem C68_all_released : forall op ms s tr i,
  rrun op (r_init op) ms = (s, tr) -> quiet s -> In LOver tr -> released tr i.
Proof. intros. eapply all_released; eauto. Qed.
Print Assumptions C68_all_released.

(** A source that has ended is released although the others go on. *)
Theorem C68_ended_source_released : forall op ms s tr i,
  rrun op (r_init op) ms = (s, tr) -> quiet s -> In (LTerm i) tr -> released tr i.
Proof. intros. eapply ended_released; eauto. Qed.
Print Assumptions C68_ended_source_released.

(** At no moment has anything been disposed whose source is still wanted. *)
Theorem C68_not_early : forall op ms s tr,
  rrun op (r_init op) ms = (s, tr) -> not_early tr (finished tr).
Proof. intros. eapply none_early; eauto. Qed.
Print Assumptions C68_not_early.

(** merge of two inner observables: the first completes (released, the others not); then
    the user unsubscribes while the second inner is inside set_upstream. *)
Definition c68_moves : list move :=
  [Begin 0 (CUp 100); Step 0; Step 0; Step 0; Begin 0 CInner; Step 0; Begin 0 CInner; Step 0;
   Begin 1 (CUp 101); Step 1; Step 1; Step 1; Begin 1 CDone; Step 1; Step 1; Step 1; Step 1;
   Begin 2 (CUp 102); Step 2; Begin 9 CDisp; Step 9; Step 9; Step 2; Step 2; Step 2; Step 9; Begin 2 (CUp 103); Step 2].
Example C68_case :
  let r := rrun RMerge (r_init RMerge) c68_moves in
  snd r = [LUp 0 100; LNew 1; LNew 2; LUp 1 101; LTerm 1; LRel 101; LUp 2 102; LOver; LRel 102; LRel 100; LUp 2 103; LRel 103] /\
  quiet (fst r).
Proof.
  split; [vm_compute; reflexivity|]. intro i. do 11 (destruct i as [|i]; [vm_compute; reflexivity|]). reflexivity.
Qed.
(** take_until ended by its notifier while the main source hands over a disposable. *)
Example C68_case_take_until :
  let r := rrun RTake (r_init RTake) [Begin 1 (CUp 7); Step 1; Begin 0 (CUp 8); Begin 1 (CNext Quiet); Step 1; Step 1; Step 0; Step 0; Step 1] in
  snd r = [LUp 1 7; LUp 0 8; LOver; LRel 8; LRel 7] /\ quiet (fst r).
Proof.
  split; [vm_compute; reflexivity|]. intro i. do 3 (destruct i as [|i]; [vm_compute; reflexivity|]). reflexivity.
Qed.
