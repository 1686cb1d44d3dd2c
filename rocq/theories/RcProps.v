(** C53 for ref_count under concurrent subscriptions and unsubscriptions. *)
From Verif Require Import Base Concur RcSpec RcModel RcProofs.

(** Nobody is in the middle of subscribing or unsubscribing. *)
Definition settled (c : kst * list (list kitem)) : Prop :=
  forall t i, In t (snd c) -> In i t -> i = RJoin \/ exists own, i = RStay own.
(** Some observer was subscribed without a reference to the connection. *)
Definition unreferenced (c : kst * list (list kitem)) : Prop := exists t, In t (snd c) /\ In (RStay None) t.

(** At any moment at most one subscription of the source is in force. *)
Theorem C53_one_connection : forall rounds tr c,
  gexec kstep (k_init, k_threads rounds) tr c -> one_at_a_time None tr.
Proof. intros rounds tr c E. exact (v_tr _ _ _ (rc_inv _ _ _ E)). Qed.
Print Assumptions C53_one_connection.

(** When everybody has left, every subscription of the source is disposed. *)
Theorem C53_released : forall rounds tr c,
  gexec kstep (k_init, k_threads rounds) tr c -> gfinished c ->
  present 0 tr = 0 /\ force None tr = None /\ all_freed tr.
Proof.
  intros rounds tr c E FIN. pose proof (rc_inv _ _ _ E) as I. rewrite (gfinished_concat _ FIN) in I.
  assert (FL : forall k, w_flag (wget (fst c) k) = true).
  { intro k. destruct (Nat.lt_ge_cases k (length (k_w (fst c)))) as [L|L]; [|now rewrite wget_out].
    pose proof (v_cnt _ _ _ I k L) as C. destruct (w_cnt (wget (fst c) k)).
    - destruct C as (-> & C & _). rewrite ?count_nil in C. lia.
    - destruct (w_flag (wget (fst c) k)); auto. rewrite ?count_nil in C. lia. }
  assert (SR : forall k, w_src (wget (fst c) k) = false).
  { intro k. destruct (w_src (wget (fst c) k)) eqn:Z; auto. pose proof (v_src _ _ _ I k Z (FL k)) as C. rewrite ?count_nil in C. lia. }
  repeat split.
  - rewrite (v_pres _ _ _ I). reflexivity.
  - destruct (force None tr) as [k|] eqn:Z; auto. apply (v_force _ _ _ I) in Z as (_ & Z & _). rewrite SR in Z. discriminate.
  - intros k K. destruct (v_freed _ _ _ I k K); auto. rewrite SR in H. discriminate.
Qed.
Print Assumptions C53_released.

(** Once subscriptions and unsubscriptions have settled, the source is subscribed exactly when
    there are observers.  Partial: assuming nobody subscribed between the moment the counter
    reached zero and the moment its disposed flag was set, see C53_orphan_refuted. *)
Theorem C53_connected_partial : forall rounds tr c,
  gexec kstep (k_init, k_threads rounds) tr c -> settled c -> ~ unreferenced c ->
  (0 < present 0 tr <-> exists k, force None tr = Some k).
Proof.
  intros rounds tr c E ST UN. pose proof (rc_inv _ _ _ E) as I.
  assert (IN : forall i, In i (concat (snd c)) -> i = RJoin \/ exists k, i = RStay (Some k)).
  { intros i Hi. apply in_concat in Hi as (t & T & Hi). destruct (ST t i T Hi) as [->|([k|] & ->)]; eauto. destruct UN. red. eauto. }
  assert (Z : forall f, f RJoin = false -> (forall k, f (RStay (Some k)) = false) -> count f (concat (snd c)) = 0).
  { intros f H1 H2. apply count_zero_of. intros x X. destruct (IN x X) as [->|(k & ->)]; auto. }
  rewrite (v_pres _ _ _ I). split.
  - intro P. destruct (filter inside (concat (snd c))) as [|i r] eqn:FI; [unfold count in P; rewrite FI in P; cbn in P; lia|].
    assert (Hi : In i (filter inside (concat (snd c)))) by (rewrite FI; now left). apply filter_In in Hi as (Hi & Y).
    destruct (IN i Hi) as [->|(k & ->)]; [discriminate|]. exists k. apply (v_force _ _ _ I).
    destruct (inv_held _ _ _ k I) as (L & F & _ & CN); [eapply count_in; eauto; cbn; apply Nat.eqb_refl|].
    repeat split; auto. destruct (v_some _ _ _ I k L F) as [S1|[S1|S1]]; auto; [congruence|].
    rewrite !Z in S1 by reflexivity. lia.
  - intros (k & K). apply (v_force _ _ _ I) in K as (L & S1 & F). pose proof (v_cnt _ _ _ I k L) as C. rewrite F in C.
    destruct (w_cnt (wget (fst c) k)) as [m|].
    + destruct C as (-> & C & _). destruct (filter (holder k) (concat (snd c))) as [|i r] eqn:FI; [unfold count in C; rewrite FI in C; cbn in C; lia|].
      assert (Hi : In i (filter (holder k) (concat (snd c)))) by (rewrite FI; now left). apply filter_In in Hi as (Hi & Y).
      destruct (IN i Hi) as [->|(j & ->)]; [discriminate|]. eapply count_in; eauto.
    + destruct C as (_ & C). rewrite Z in C by reflexivity. discriminate.
Qed.
Print Assumptions C53_connected_partial.

(** The mutex never blocks for good. *)
Theorem C53_progress : forall rounds tr c,
  gexec kstep (k_init, k_threads rounds) tr c -> ~ gfinished c -> exists ls c', gstep kstep c ls c'.
Proof.
  intros rounds tr c E NF. pose proof (rc_inv _ _ _ E) as I. pose proof (rc_tails _ _ _ E) as TL.
  assert (GO : forall it rest, In (it :: rest) (snd c) -> kstep (fst c) it <> None -> exists ls c', gstep kstep c ls c').
  { intros it rest T K. destruct (kstep (fst c) it) as [[[s' its] ls]|] eqn:Q; [|congruence].
    apply in_split in T as (a & b & T). destruct c as [s ts]. cbn [fst snd] in *. subst ts. eexists. eexists. econstructor. eauto. }
  destruct (k_mtx (fst c)) eqn:MX.
  - pose proof (v_mtx _ _ _ I) as M. rewrite MX in M.
    destruct (filter anyref (concat (snd c))) as [|i r] eqn:FI; [unfold count in M; rewrite FI in M; discriminate|].
    assert (Hi : In i (filter anyref (concat (snd c)))) by (rewrite FI; now left). apply filter_In in Hi as (Hi & Y).
    destruct i; try discriminate. apply in_concat in Hi as (t & T & Hi). destruct t as [|i t]; [destruct Hi|].
    destruct Hi as [->|Hi]; [|destruct (TL _ T _ Hi); discriminate].
    eapply GO; eauto. cbn [kstep]. destruct (w_cnt (wget (fst c) k)); discriminate.
  - assert (X : exists it rest, In (it :: rest) (snd c)).
    { destruct c as [s ts]. unfold gfinished in NF. cbn [snd] in *. clear - NF. induction ts as [|t ts IH]; [destruct NF; intros t []|].
      destruct t as [|i t]; [|exists i, t; now left]. destruct IH as (i & r & H); [|exists i, r; now right].
      intro H. apply NF. intros x [<-|X]; auto. }
    destruct X as (it & rest & T). eapply GO; eauto.
    destruct it; cbn [kstep]; rewrite ?MX; repeat match goal with |- context [match ?x with _ => _ end] => destruct x end; discriminate.
Qed.
Print Assumptions C53_progress.

(** Without the restriction C53_connected_partial is false: the second thread asks for a
    reference after the first one counted down to zero and before it set the flag; the
    observer stays subscribed and nothing will ever connect the source for it. *)
Theorem C53_orphan_refuted :
  exists tr c, gexec kstep (k_init, k_threads [1; 1]) tr c /\ settled c /\
    present 0 tr = 1 /\ force None tr = None.
Proof.
  pose (ex := gtol kstep [0;0;0;0;0; 0;0; 1;1;1; 0;0;0] (k_init, k_threads [1; 1])).
  exists (fst ex), (snd ex). split; [apply gtol_sound|].
  assert (E : snd (snd ex) = [[]; [RStay None]]) by (vm_compute; reflexivity).
  repeat split; try (vm_compute; reflexivity).
  intros t i T Hi. rewrite E in T. destruct T as [<-|[<-|[]]]; cbn [In] in Hi; intuition (subst; eauto).
Qed.
Print Assumptions C53_orphan_refuted.

(** Two threads share one connection, one of them leaves: settled, referenced, connected. *)
Example C53_case : exists tr c, gexec kstep (k_init, k_threads [2; 1]) tr c /\ settled c /\ ~ unreferenced c /\ present 0 tr = 1 /\ force None tr = Some 0.
Proof.
  pose (ex := gtol kstep [0;1;0;1;0;1;0;0;0;0;0] (k_init, k_threads [2; 1])).
  exists (fst ex), (snd ex). split; [apply gtol_sound|].
  assert (E : snd (snd ex) = [[RJoin]; [RStay (Some 0)]]) by (vm_compute; reflexivity).
  repeat split; try (vm_compute; reflexivity).
  - intros t i T Hi. rewrite E in T. destruct T as [<-|[<-|[]]]; cbn [In] in Hi; intuition (subst; eauto).
  - intros (t & T & Hi). rewrite E in T. destruct T as [<-|[<-|[]]]; cbn [In] in Hi; intuition discriminate.
Qed.
(** A new connection after the previous one was dropped. *)
Example C53_again : exists tr c, gexec kstep (k_init, k_threads [2]) tr c /\ gfinished c /\
  tr = [LIn; LOn 0; LOff 0; LFree 0; LOut; LIn; LOn 1; LOff 1; LFree 1; LOut].
Proof.
  pose (ex := gtol kstep (repeat 0 30) (k_init, k_threads [2])).
  exists (fst ex), (snd ex). split; [apply gtol_sound|]. split; [|vm_compute; reflexivity].
  intros t T. assert (E : snd (snd ex) = [[]]) by (vm_compute; reflexivity). rewrite E in T. destruct T as [<-|[]]. auto.
Qed.
