From Verif Require Import Base ObserverModel CapSpec CapModel.

Lemma fits_add : forall s k n, fits (sel_cap s) n -> fits (sel_cap (sel_add s k)) (k + n).
Proof. intros [p a| |[|m] a] k n; cbn; auto; lia. Qed.
Lemma fits_container : forall s n, fits (sel_cap s) n -> fits (sel_container s) n.
Proof. intros [p a| |[|m] a] n; cbn; auto. Qed.

Definition fit_all (ls : list (option nat * nat)) : Prop := Forall (fun l => fits (fst l) (snd l)) ls.

Lemma calls_fit : forall o ls n, calls o ls n -> fits (sel_cap (expected o)) n /\ fit_all ls.
Proof.
  apply (calls_mut (fun o ls n => fits (sel_cap (expected o)) n /\ fit_all ls) (fun os ls n => fit_all ls));
    unfold fit_all; intros; cbn [expected sel_cap fits] in *;
    repeat match goal with H : _ /\ _ |- _ => destruct H end;
    try (split; [|auto; fail]); auto; try lia.
  - destruct (sel_cap (expected o)); cbn; lia.
  - destruct r; cbn; lia.
  - now apply fits_add.
  - now apply fits_add.
  - now apply fits_add.
  - now apply fits_add.
  - split; auto. apply Forall_app; auto.
  - split; auto. apply Forall_app; auto.
  - split; auto. apply Forall_app; auto.
  - split; auto. apply Forall_app; auto.
  - split; auto. constructor; [cbn; now apply fits_container|]. apply Forall_app; auto.
  - apply Forall_app; auto.
Qed.

Lemma fixed_tight : forall o c, sel_cap (expected o) = Some c -> exists ls, calls o ls c.
Proof.
  assert (A : forall s c, sel_cap (sel_add s 1) = Some c -> exists c', c = 1 + c' /\ sel_cap s = Some c').
  { intros [p a| |[|m] a] c; cbn; try discriminate; intros [= <-]; eauto. exists (S m). split; auto; lia. }
  fix IH 1. intros [| |o| | | | |o|o|o|o1 o2|p o|o|o|g o|os o|os o|u o|f o|f o] c; cbn [expected]; try discriminate.
  - cbn. intros [= <-]. eexists. constructor.
  - intro E. destruct (IH o c E). eexists. constructor; eauto.
  - cbn. intros [= <-]. eexists. constructor.
  - cbn. intros [= <-]. exists []. apply (CWindow true).
  - intro E. destruct (A _ _ E) as (c' & -> & E'). destruct (IH o c' E'). eexists. constructor; eauto.
  - intro E. destruct (A _ _ E) as (c' & -> & E'). destruct (IH o c' E'). eexists. constructor; eauto.
  - intro E. destruct (IH o c E). eexists. constructor; eauto.
  - intro E. destruct (A _ _ E) as (c' & -> & E'). destruct (IH o c' E'). eexists. constructor; eauto.
  - intro E. destruct (A _ _ E) as (c' & -> & E'). destruct (IH o c' E'). eexists. constructor; eauto.
  - cbn. intros [= <-]. eexists. eapply CSingle. apply CSkip.
Qed.

(** With enough place the observer is the one that never runs out of place. *)
Lemma observer_same : forall V cb ox c (cs : list (call V)) s,
  length (o_up s) + upstreams cs <= c -> o_run cb (Some c) ox s cs = o_run cb None ox s cs.
Proof.
  intros V cb ox c cs. induction cs as [|x cs IH]; intros s L; auto.
  change (o_run cb (Some c) ox (o_call cb (Some c) ox s x) cs = o_run cb None ox (o_call cb None ox s x) cs).
  assert (E : o_call cb (Some c) ox s x = o_call cb None ox s x).
  { destruct x as [e|d|]; auto. cbn. unfold o_set_upstream, o_full.
    cbn [upstreams] in L. assert (Q : c <=? length (o_up s) = false) by (apply Nat.leb_gt; lia). now rewrite Q. }
  rewrite E. apply IH.
  assert (length (o_up (o_call cb None ox s x)) + upstreams cs <= length (o_up s) + upstreams (x :: cs)); [|lia].
  assert (D : forall s : ostate V, o_up (o_dispose s) = o_up s) by (intros [[] ? ? ?]; auto).
  destruct x as [e|d|]; cbn [o_call upstreams].
  - assert (Q : o_up (o_event cb s e) = o_up s); [|rewrite Q; auto].
    destruct s as [[] u r l]; [now destruct e|].
    destruct e as [v|e|]; auto. cbn. unfold o_on_next. cbn. destruct (cb l v); auto.
  - unfold o_set_upstream, o_full. destruct (o_flag s); cbn; rewrite ?app_length; cbn; lia.
  - rewrite D. auto.
Qed.
