(** from_signal as a publish_subject. *)
From Verif Require Import Base Machine SubjSpec SubjModel SubjProofs SigSpec SigModel.

Section P.
  Context {V : Type}.

  (** The calls on the subject. *)
  Fixpoint calls (conn : bool) (h : list (qop V)) : list (sop V) :=
    match h with
    | [] => []
    | QSub i :: r => OSub i :: calls conn r
    | QUnsub i :: r => OUnsub i :: calls conn r
    | QSignal v :: r => if conn then OEmit (Next v) :: calls conn r else calls conn r
    | QDestroy :: r => if conn then OEmit Done :: calls false r else calls conn r
    end.

  Lemma sig_run_calls : forall (D : machine V) h g,
    match sop_run D (fun _ _ => []) (g_subj D g) (calls (g_conn D g) h) with
    | Some s => exists g', sig_run D g h = Some g' /\ g_subj D g' = s
    | None => sig_run D g h = None
    end.
  Proof.
    intros D. induction h as [|[i|i|v|] h IH]; intros [s c]; cbn [calls sop_run sig_run g_subj g_conn].
    - eexists. split; reflexivity.
    - unfold sig_step. cbn [g_subj g_conn]. destruct (sop_step D _ s (OSub i)) as [s'|]; auto. apply (IH (SG D s' c)).
    - unfold sig_step. cbn [g_subj g_conn]. destruct (sop_step D _ s (OUnsub i)) as [s'|]; auto. apply (IH (SG D s' c)).
    - unfold sig_step. cbn [g_subj g_conn]. destruct c; [|apply (IH (SG D s false))].
      cbn [sop_run]. destruct (sop_step D _ s (OEmit (Next v))) as [s'|]; auto. apply (IH (SG D s' true)).
    - unfold sig_step. cbn [g_subj g_conn]. destruct c; [|apply (IH (SG D s false))].
      cbn [sop_run]. destruct (sop_step D _ s (OEmit Done)) as [s'|]; auto. apply (IH (SG D s' false)).
  Qed.
  Lemma calls_subs : forall h c, subs (calls c h) = qsubs h.
  Proof.
    induction h as [|[i|i|v|] h IH]; intro c; auto; try (destruct c); cbn [calls]; unfold subs, qsubs; cbn [flat_map app]; auto;
      try (f_equal; apply IH); apply IH.
  Qed.
  Lemma calls_unsub : forall i h c, unsubbed i (calls c h) = existsb (fun o => match o with QUnsub j => j =? i | _ => false end) h.
  Proof.
    intros i. unfold unsubbed. induction h as [|[k|k|v|] h IH]; intro c; auto; try (destruct c); cbn [calls existsb]; auto; rewrite IH; auto.
  Qed.
  Notation rc := (received_from (V := V) (fun (s : unit) _ => s) (fun _ => [])).

  (** not subscribed: nothing arrives *)
  Lemma off : forall i h f, ~ In (QSub i) h -> forall c, rc i false f tt (calls c h) = [].
  Proof.
    intros i. induction h as [|[k|k|v|] h IH]; intros f H c; auto; assert (H' : ~ In (QSub i) h) by (intro; apply H; now right); cbn [calls].
    - cbn [received_from]. destruct (Nat.eqb_spec k i) as [EQ|NE]; [subst k; exfalso; apply H; now left|]. apply IH; auto.
    - cbn [received_from]. destruct (k =? i); auto.
    - destruct c; [|apply IH; auto]. cbn [received_from is_term]. destruct f; cbn [app]; apply IH; auto.
    - destruct c; [|apply IH; auto]. cbn [received_from is_term]. destruct f; cbn [app]; apply IH; auto.
  Qed.
  (** after the end *)
  Lemma ended : forall i h on, ~ In (QSub i) h -> rc i on (Ended Done) tt (calls false h) = [].
  Proof.
    intros i. induction h as [|[k|k|v|] h IH]; intros on H; auto; assert (H' : ~ In (QSub i) h) by (intro; apply H; now right); cbn [calls]; auto.
    - cbn [received_from]. destruct (Nat.eqb_spec k i) as [EQ|NE]; [subst k; exfalso; apply H; now left|]. apply IH; auto.
    - cbn [received_from]. destruct (k =? i); auto.
  Qed.
  (** while subscribed *)
  Lemma during : forall i b r, ~ In (QSub i) b -> ~ In (QUnsub i) b -> ~ In QDestroy b ->
    rc i true Open tt (calls true (b ++ r)) = map Next (signals b) ++ rc i true Open tt (calls true r).
  Proof.
    intros i. induction b as [|[k|k|v|] b IH]; intros r H1 H2 H3; auto; cbn [app calls received_from];
      assert (H1' : ~ In (QSub i) b) by (intro; apply H1; now right);
      assert (H2' : ~ In (QUnsub i) b) by (intro; apply H2; now right);
      assert (H3' : ~ In QDestroy b) by (intro; apply H3; now right).
    - destruct (Nat.eqb_spec k i) as [EQ|NE]; [subst k; exfalso; apply H1; now left|]. apply IH; auto.
    - destruct (Nat.eqb_spec k i) as [EQ|NE]; [subst k; exfalso; apply H2; now left|]. apply IH; auto.
    - cbn [is_term app]. rewrite IH; auto.
    - exfalso. apply H3. now left.
  Qed.
  (** before the subscription *)
  Lemma before : forall i a r, ~ In (QSub i) a -> ~ In (QUnsub i) a -> ~ In QDestroy a ->
    rc i false Open tt (calls true (a ++ r)) = rc i false Open tt (calls true r).
  Proof.
    intros i. induction a as [|[k|k|v|] b IH]; intros r H1 H2 H3; auto; cbn [app calls received_from];
      assert (H1' : ~ In (QSub i) b) by (intro; apply H1; now right);
      assert (H2' : ~ In (QUnsub i) b) by (intro; apply H2; now right);
      assert (H3' : ~ In QDestroy b) by (intro; apply H3; now right).
    - destruct (Nat.eqb_spec k i) as [EQ|NE]; [subst k; exfalso; apply H1; now left|]. apply IH; auto.
    - destruct (Nat.eqb_spec k i) as [EQ|NE]; [subst k; exfalso; apply H2; now left|]. apply IH; auto.
    - cbn [is_term app]. apply IH; auto.
    - exfalso. apply H3. now left.
  Qed.
  Lemma before_late : forall i a r, ~ In (QSub i) a -> ~ In (QUnsub i) a ->
    rc i false (Ended Done) tt (calls false (a ++ r)) = rc i false (Ended Done) tt (calls false r).
  Proof.
    intros i. induction a as [|[k|k|v|] b IH]; intros r H1 H2; auto; cbn [app calls received_from];
      assert (H1' : ~ In (QSub i) b) by (intro; apply H1; now right);
      assert (H2' : ~ In (QUnsub i) b) by (intro; apply H2; now right); auto.
    - destruct (Nat.eqb_spec k i) as [EQ|NE]; [subst k; exfalso; apply H1; now left|]. apply IH; auto.
    - destruct (Nat.eqb_spec k i) as [EQ|NE]; [subst k; exfalso; apply H2; now left|]. apply IH; auto.
  Qed.

  Definition seen (i : nat) (h : list (qop V)) : list (ev V) := received i (calls true h).

  Lemma sig_seen : forall (D : machine V), lawful D -> forall h d0, NoDup (qsubs h) ->
    exists g, sig_run D (from_signal D d0) h = Some g /\
      forall i, s_sub D (g_subj D g) i =
        if existsb (fun o => match o with QUnsub j => j =? i | _ => false end) h then mkill D (mrun D d0 (seen i h)) else mrun D d0 (seen i h).
  Proof.
    intros D L h d0 N. rewrite <- (calls_subs h true) in N. destruct (publish_run D L (calls true h) d0 N) as (s & R & E).
    pose proof (sig_run_calls D h (from_signal D d0)) as C. cbn [from_signal g_subj g_conn] in C. change (fun _ _ => []) with (none (V := V)) in C. rewrite R in C.
    destruct C as (g & RG & <-). exists g. split; auto. intro i. rewrite E. unfold final. rewrite calls_unsub. reflexivity.
  Qed.

  Lemma unsub_none : forall i (h : list (qop V)), ~ In (QUnsub i) h -> existsb (fun o => match o with QUnsub j => j =? i | _ => false end) h = false.
  Proof.
    intros i h H. apply Bool.not_true_is_false. intro X. apply existsb_exists in X. destruct X as ([k|k|v|] & I & E); try discriminate.
    apply Nat.eqb_eq in E. subst k. contradiction.
  Qed.
  Lemma qsubs_app : forall a b : list (qop V), qsubs (a ++ b) = qsubs a ++ qsubs b.
  Proof. intros. apply flat_map_app. Qed.
  Lemma in_qsubs : forall i (h : list (qop V)), In (QSub i) h -> In i (qsubs h).
  Proof. intros i h H. apply in_flat_map. exists (QSub i). split; auto. now left. Qed.
  Lemma sub_once : forall i a (r : list (qop V)), NoDup (qsubs (a ++ QSub i :: r)) -> ~ In (QSub i) a /\ ~ In (QSub i) r.
  Proof.
    intros i a r N. rewrite qsubs_app in N. cbn in N. apply NoDup_remove_2 in N.
    split; intro H; apply in_qsubs in H; apply N; apply in_or_app; auto.
  Qed.
End P.
