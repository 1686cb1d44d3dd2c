(** C80: from_signal. *)
From Verif Require Import Base Machine MachineProofs ObserverModel ChainModel SubjSpec SubjModel MultiProps SigSpec SigModel SigProofs.

(** While the object lives, a subscriber has got exactly the signals emitted since its
    subscription, in order. *)
Theorem C80_alive : forall V (D : machine V), lawful D -> forall d0 i a b,
  NoDup (qsubs (a ++ QSub i :: b)) -> ~ In QDestroy (a ++ b) -> ~ In (QUnsub i) (a ++ b) ->
  exists g, sig_run D (from_signal D d0) (a ++ QSub i :: b) = Some g /\
    s_sub D (g_subj D g) i = mrun D d0 (map Next (signals b)).
Proof.
  intros V D L d0 i a b N G U. destruct (sig_seen D L _ d0 N) as (g & R & E). exists g. split; auto. rewrite E.
  destruct (sub_once i a b N) as (Sa & Sb).
  assert (Ua : ~ In (QUnsub i) a) by (intro; apply U; apply in_or_app; auto). assert (Ub : ~ In (QUnsub i) b) by (intro; apply U; apply in_or_app; auto).
  assert (Ga : ~ In QDestroy a) by (intro; apply G; apply in_or_app; auto). assert (Gb : ~ In QDestroy b) by (intro; apply G; apply in_or_app; auto).
  rewrite unsub_none by (intro H; apply in_app_or in H; destruct H as [H|[H|H]]; [auto|discriminate|auto]).
  f_equal. unfold seen, received. rewrite before by auto. cbn [calls received_from]. rewrite Nat.eqb_refl. cbn [map app].
  rewrite <- (app_nil_r b) at 1. rewrite during by auto. cbn. apply app_nil_r.
Qed.
Print Assumptions C80_alive.

(** When the object is destroyed the subscriber gets on_completed, and nothing more. *)
Theorem C80_destroyed : forall V (D : machine V), lawful D -> forall d0 i a b c,
  NoDup (qsubs (a ++ QSub i :: b ++ QDestroy :: c)) -> ~ In QDestroy (a ++ b) -> ~ In (QUnsub i) (a ++ b ++ c) ->
  exists g, sig_run D (from_signal D d0) (a ++ QSub i :: b ++ QDestroy :: c) = Some g /\
    s_sub D (g_subj D g) i = mrun D d0 (map Next (signals b) ++ [Done]).
Proof.
  intros V D L d0 i a b c N G U. destruct (sig_seen D L _ d0 N) as (g & R & E). exists g. split; auto. rewrite E.
  destruct (sub_once i a _ N) as (Sa & Sb).
  assert (Ua : ~ In (QUnsub i) a) by (intro; apply U; apply in_or_app; auto).
  assert (Ub : ~ In (QUnsub i) b) by (intro; apply U; apply in_or_app; right; apply in_or_app; auto).
  assert (Uc : ~ In (QUnsub i) c) by (intro; apply U; apply in_or_app; right; apply in_or_app; auto).
  assert (Ga : ~ In QDestroy a) by (intro; apply G; apply in_or_app; auto). assert (Gb : ~ In QDestroy b) by (intro; apply G; apply in_or_app; auto).
  assert (Sb' : ~ In (QSub i) b) by (intro; apply Sb; apply in_or_app; auto).
  assert (Sc : ~ In (QSub i) c) by (intro; apply Sb; apply in_or_app; right; now right).
  rewrite unsub_none.
  2:{ intro H. apply in_app_or in H. destruct H as [H|[H|H]]; [auto|discriminate|]. apply in_app_or in H. destruct H as [H|[H|H]]; [auto|discriminate|auto]. }
  f_equal. unfold seen, received. rewrite before by auto. cbn [calls received_from]. rewrite Nat.eqb_refl. cbn [map app].
  rewrite during by auto. f_equal. cbn [calls received_from is_term app]. f_equal. apply ended. auto.
Qed.
Print Assumptions C80_destroyed.

(** Who subscribes after the destruction gets on_completed at once. *)
Theorem C80_late : forall V (D : machine V), lawful D -> forall d0 i a b c,
  NoDup (qsubs (a ++ QDestroy :: b ++ QSub i :: c)) -> ~ In (QUnsub i) (a ++ b ++ c) -> ~ In QDestroy a ->
  exists g, sig_run D (from_signal D d0) (a ++ QDestroy :: b ++ QSub i :: c) = Some g /\
    s_sub D (g_subj D g) i = mrun D d0 [Done].
Proof.
  intros V D L d0 i a b c N U Ga. destruct (sig_seen D L _ d0 N) as (g & R & E). exists g. split; auto. rewrite E.
  assert (N' : NoDup (qsubs ((a ++ QDestroy :: b) ++ QSub i :: c))) by (rewrite <- app_assoc; exact N).
  destruct (sub_once i _ c N') as (Sab & Sc).
  assert (Sa : ~ In (QSub i) a) by (intro; apply Sab; apply in_or_app; auto).
  assert (Sb : ~ In (QSub i) b) by (intro; apply Sab; apply in_or_app; right; now right).
  assert (Ua : ~ In (QUnsub i) a) by (intro; apply U; apply in_or_app; auto).
  assert (Ub : ~ In (QUnsub i) b) by (intro; apply U; apply in_or_app; right; apply in_or_app; auto).
  assert (Uc : ~ In (QUnsub i) c) by (intro; apply U; apply in_or_app; right; apply in_or_app; auto).
  rewrite unsub_none.
  2:{ intro H. apply in_app_or in H. destruct H as [H|[H|H]]; [auto|discriminate|]. apply in_app_or in H. destruct H as [H|[H|H]]; [auto|discriminate|auto]. }
  f_equal. unfold seen, received. rewrite before by auto. cbn [calls received_from is_term app]. rewrite before_late by auto.
  cbn [calls received_from]. rewrite Nat.eqb_refl. f_equal. apply off. auto.
Qed.
Print Assumptions C80_late.

(** A subscriber whose subscription was disposed has got the signals emitted in between. *)
Theorem C80_unsubscribed : forall V (D : machine V), lawful D -> forall d0 i a b c,
  NoDup (qsubs (a ++ QSub i :: b ++ QUnsub i :: c)) -> ~ In QDestroy (a ++ b) -> ~ In (QUnsub i) (a ++ b) ->
  exists g, sig_run D (from_signal D d0) (a ++ QSub i :: b ++ QUnsub i :: c) = Some g /\
    s_sub D (g_subj D g) i = mkill D (mrun D d0 (map Next (signals b))).
Proof.
  intros V D L d0 i a b c N G U. destruct (sig_seen D L _ d0 N) as (g & R & E). exists g. split; auto. rewrite E.
  destruct (sub_once i a _ N) as (Sa & Sb).
  assert (Ua : ~ In (QUnsub i) a) by (intro; apply U; apply in_or_app; auto).
  assert (Ub : ~ In (QUnsub i) b) by (intro; apply U; apply in_or_app; auto).
  assert (Ga : ~ In QDestroy a) by (intro; apply G; apply in_or_app; auto). assert (Gb : ~ In QDestroy b) by (intro; apply G; apply in_or_app; auto).
  assert (Sb' : ~ In (QSub i) b) by (intro; apply Sb; apply in_or_app; auto).
  assert (X : existsb (fun o => match o with QUnsub j => j =? i | _ => false end) (a ++ QSub i :: b ++ QUnsub i :: c) = true).
  { apply existsb_exists. exists (QUnsub i). split; [|apply Nat.eqb_refl]. apply in_or_app. right. right. apply in_or_app. right. now left. }
  rewrite X. do 2 f_equal. unfold seen, received. rewrite before by auto. cbn [calls received_from]. rewrite Nat.eqb_refl. cbn [map app].
  rewrite during by auto. cbn [calls received_from]. rewrite Nat.eqb_refl. apply app_nil_r.
Qed.
Print Assumptions C80_unsubscribed.

Definition sig_hist : list (qop nat) := [QSignal 1; QSub 0; QSignal 2; QSub 1; QSignal 3; QUnsub 0; QSignal 4; QDestroy; QSub 2].
Example C80_case : exists g, sig_run plain (from_signal plain o_init) sig_hist = Some g /\
  map (fun i => o_log (s_sub plain (g_subj plain g) i)) [0; 1; 2] = [[Next 2; Next 3]; [Next 3; Next 4; Done]; [Done]].
Proof. eexists. split; [vm_compute; reflexivity|]. reflexivity. Qed.
