From Verif Require Import Base Machine MachineProofs OpsModel OpsSpec OpsProofs
  ObserverSpec ObserverModel ObserverProofs ChainModel ChainSpec.

Lemma chunked_fun : forall A n vs t (b : list A), chunked n b vs t = buffer_fun n b vs t.
Proof. reflexivity. Qed.

(** ---- tap ---- *)
Lemma tap_refines : forall A (f : A -> res unit), refines (tap_op f) (tap_spec f).
Proof.
  intros A f. apply (principle (tap_op f) (fun _ => True) (fun _ => tap_spec f)); auto.
  - intros D L s d; cbn; split; intros; apply law_term; auto.
  - intros D L s d v _ Hd. cbn. destruct (f v) as [b|e]; cbn; (split; [auto|]); intros; auto.
    unfold lift_err; cbn. now rewrite Hd.
Qed.

(** tap's own callbacks: the log of invocations. *)
Lemma tap_log_gen : forall A (f : A -> res unit) D, lawful D -> forall evs log (d : mst D),
  let s := mrun (lift (tap_op f) D) (log, d) evs in
  exists n,
    fst s = log ++ firstn n (tap_seen f (vals evs) (term_list evs)) /\
    (n >= length (tap_seen f (vals evs) (term_list evs)) \/ mdisp D (snd s) = true).
Proof.
  intros A f D L. set (M := lift (tap_op f) D).
  assert (LM: lawful M). { apply lift_lawful; auto. intros D' L' s d; cbn; split; intros; apply law_term; auto. }
  induction evs as [|e evs IH]; intros log d; cbn zeta.
  - exists 0. cbn. rewrite app_nil_r. auto.
  - rewrite mrun_cons.
    destruct (mdisp D d) eqn:Hd.
    { assert (E: mstep M (log, d) e = (log, d)) by (apply (law_dead M LM); exact Hd).
      rewrite E, (mrun_dead _ M LM) by exact Hd. exists 0. cbn. rewrite app_nil_r. auto. }
    destruct e as [v|x|].
    + change (@term_list A A (Next v :: evs)) with (@term_list A A evs). cbn [vals tap_seen].
      cbn [mstep M lift lift_step]. unfold lift_next. cbn [fst snd]. rewrite Hd. cbn [op_next tap_op].
      destruct (f v) as [u|e] eqn:F.
      * destruct (IH (log ++ [Next v]) (mstep D d (Next v))) as (n & H1 & H2).
        exists (S n). cbn [firstn length]. split.
        -- etransitivity; [exact H1|]. now rewrite <- app_assoc.
        -- destruct H2; [left; lia | right; assumption].
      * exists 2. unfold lift_err; cbn [fst snd]. rewrite Hd. cbn [op_err tap_op].
        assert (T: mdisp M ((log ++ [Next v]) ++ [Err e], mstep D d (Err e)) = true)
          by (apply law_term; auto).
        rewrite (mrun_dead _ M LM _ _ T). cbn. rewrite <- app_assoc. split; auto.
    + cbn [mstep M lift lift_step]. unfold lift_err; cbn [fst snd]. rewrite Hd. cbn [op_err tap_op].
      assert (T: mdisp M (log ++ [Err x], mstep D d (Err x)) = true) by (apply law_term; auto).
      rewrite (mrun_dead _ M LM _ _ T). exists 1. cbn. auto.
    + cbn [mstep M lift lift_step]. unfold lift_done; cbn [fst snd]. rewrite Hd. cbn [op_done tap_op].
      assert (T: mdisp M (log ++ [Done], mstep D d Done) = true) by (apply law_term; auto).
      rewrite (mrun_dead _ M LM _ _ T). exists 1. cbn. auto.
Qed.

Lemma buffer_fun_refines : forall A n, 0 < n -> refines (@buffer_op A n) (buffer_fun n []).
Proof.
  intros A n H D L d evs. rewrite (buffer_refines A n H D L d evs). now rewrite chunked_fun.
Qed.

Lemma buffer_fun_rel : forall A n vs t, 0 < n -> @buffer_rel A n vs t (buffer_fun n [] vs t).
Proof. intros A n vs t H. rewrite <- chunked_fun. apply (chunked_rel A n vs t []). exact H. Qed.

Lemma denote_refines : forall A B (l : libop A B), refines (denote l) (op_spec l).
Proof.
  destruct l; cbn.
  - apply map_refines.
  - apply filter_refines.
  - apply take_refines.
  - apply skip_refines.
  - apply element_at_refines.
  - apply first_refines.
  - apply last_refines.
  - apply take_while_refines.
  - apply take_last_refines.
  - apply distinct_refines; auto.
  - apply duc_refines.
  - apply scan_refines.
  - apply scan1_refines.
  - apply reduce_refines.
  - apply reduce1_refines.
  - apply (buffer_fun_refines A (Nat.max 1 n)). lia.
  - apply tap_refines.
  - apply throttle_refines.
Qed.

Lemma denote_ok : forall A B (l : libop A B), op_ok (denote l).
Proof.
  destruct l; cbn; try apply fwd_ok; intros D L s d; cbn in *; split; intros;
    try (apply law_term; auto; fail).
  - destruct s; cbn; apply law_term; auto.
  - destruct s; cbn; apply law_term; auto.
  - destruct (tl_flush _ _ _ _ _); cbn; apply law_term; auto.
Qed.

Lemma build_lawful : forall A C (c : chain A C) D, lawful D -> lawful (build c D).
Proof.
  induction c; intros D L; cbn; auto. apply lift_lawful; auto using denote_ok.
Qed.

Lemma build_disp : forall A C (c : chain A C) D s, mdisp (build c D) s = mdisp D (bottom c D s).
Proof. induction c; intros D s; cbn; auto. Qed.

Lemma build_refines : forall A C (c : chain A C) D, lawful D -> forall d evs,
  bottom c D (mrun (build c D) (build_init c D d) evs) = mrun D d (chain_spec c evs).
Proof.
  induction c as [A | A B C o r IH]; intros D L d evs; cbn [build build_init bottom chain_spec].
  - reflexivity.
  - rewrite (denote_refines A B o (build r D) (build_lawful _ _ r D L)). apply IH; auto.
Qed.

(** ---- grammar of the specifications ---- *)
Lemma gram_tpart : forall A (t : list (ev A)), tpart t -> grammatical t.
Proof. intros A t H. exists [], t. split; auto. Qed.
Lemma gram_cons : forall A (v : A) l, grammatical l -> grammatical (Next v :: l).
Proof. intros A v l (vs & t & E & T). exists (v :: vs), t. split; auto. now rewrite E. Qed.
Lemma gram_app : forall A (vs : list A) l, grammatical l -> grammatical (map Next vs ++ l).
Proof. induction vs; cbn; auto using gram_cons. Qed.
Lemma gram_e : forall A e, grammatical [@Err A e].
Proof. intros. apply gram_tpart. right. right. eauto. Qed.
Lemma gram_d : forall A, grammatical [@Done A].
Proof. intros. apply gram_tpart. right. left. auto. Qed.
#[local] Hint Resolve gram_tpart gram_cons gram_app gram_e gram_d : gram.

Local Arguments Nat.ltb : simpl never.
Lemma op_spec_gram : forall A B (l : libop A B) vs t, tpart t -> grammatical (op_spec l vs t).
Proof.
  destruct l; intros vs t T; cbn.
  - induction vs as [|v vs IH]; cbn; auto with gram. destruct (r v); auto with gram.
  - induction vs as [|v vs IH]; cbn; auto with gram. destruct (r v) as [[|]|]; auto with gram.
  - unfold take_spec. destruct (length vs <? _); auto with gram.
  - unfold skip_spec; auto with gram.
  - unfold element_at_spec, done_to_err. destruct (nth_error vs n); auto with gram. tcases T; auto with gram. exact (gram_vals []).
  - unfold first_spec, done_to_err. destruct vs; auto with gram. tcases T; auto with gram. exact (gram_vals []).
  - unfold last_spec. tcases T; auto with gram. { exact (gram_vals []). } destruct (rev vs); auto with gram.
  - induction vs as [|v vs IH]; cbn; auto with gram. destruct (r v) as [[|]|]; auto with gram.
  - unfold take_last_spec. tcases T; auto with gram. exact (gram_vals []).
  - unfold distinct_spec; auto with gram.
  - unfold duc_spec. destruct vs as [|v vs]; auto with gram. apply gram_cons. revert v.
    induction vs as [|w vs IH]; intro v; cbn; auto with gram. destruct (r v w) as [[|]|]; auto with gram.
  - unfold scan_spec. apply gram_cons. revert b. induction vs as [|v vs IH]; intro b; cbn; auto with gram.
    destruct (r b v); auto with gram.
  - unfold scan1_spec. destruct vs as [|v vs]; auto with gram. apply gram_cons. revert v.
    induction vs as [|w vs IH]; intro v; cbn; auto with gram. destruct (r v w); auto with gram.
  - unfold reduce_spec. destruct (foldr_res r b vs); auto with gram. tcases T; auto with gram. exact (gram_vals []).
  - unfold reduce1_spec, reduce_spec. destruct vs as [|v vs]; auto with gram.
    destruct (foldr_res r v vs); auto with gram. tcases T; auto with gram. exact (gram_vals []).
  - change (grammatical (buffer_fun (Nat.max 1 n) [] vs t)). generalize (Nat.max 1 n) as k. intro k.
    assert (H: forall vs b, grammatical (buffer_fun k b vs t)); [|apply H].
    clear vs. induction vs as [|v vs IH]; intro b; cbn.
    + tcases T; auto with gram. { exact (gram_vals []). } destruct b; cbn; auto with gram.
    + destruct (length (b ++ [v]) =? k); auto with gram.
  - induction vs as [|v vs IH]; cbn; auto with gram. destruct (r v); auto with gram.
  - unfold throttle_spec. destruct vs as [|[now v] vs]; auto with gram. apply gram_cons. revert now.
    induction vs as [|[n' w] vs IH]; intro now; cbn; auto with gram. destruct (n' <? now + n); auto with gram.
Qed.

Lemma gram_vals_term : forall A (l : list (ev A)), grammatical l -> map Next (vals l) ++ term_list l = l.
Proof.
  intros A l (vs & t & -> & T). induction vs as [|v vs IH]; cbn.
  - tcases T; reflexivity.
  - f_equal. exact IH.
Qed.

Lemma chain_spec_gram : forall A C (c : chain A C) evs, grammatical evs -> grammatical (chain_spec c evs).
Proof.
  induction c as [A | A B C o r IH]; intros evs G; cbn; auto.
  apply IH. apply op_spec_gram. apply term_list_tpart.
Qed.

Lemma chain_spec_gram_cons : forall A B C (o : libop A B) (c : chain B C) evs,
  grammatical (chain_spec (ChCons A B C o c) evs).
Proof. intros. cbn. apply chain_spec_gram, op_spec_gram, term_list_tpart. Qed.

(** The user's observer is lawful. *)
Lemma leaf_lawful : forall V (cb : list (ev V) -> V -> reaction), lawful (leaf cb).
Proof.
  intros V cb. constructor; cbn.
  - intros [f u r l] [v|e|]; cbn; intros ->; reflexivity.
  - intros [f u r l] [v|e|]; cbn; intros H; try discriminate; destruct f; reflexivity.
  - intros [f u r l]; destruct f; reflexivity.
  - intros [f u r l]; cbn; intros ->; reflexivity.
Qed.

Lemma leaf_run : forall V (cb : list (ev V) -> V -> reaction) evs s,
  mrun (leaf cb) s evs = o_run cb None 0 s (map CEv evs).
Proof. induction evs as [|e evs IH]; intro s; [reflexivity|]. rewrite mrun_cons, IH. reflexivity. Qed.

Lemma live_events_gram : forall V (evs : list (ev V)), grammatical evs -> live_events (map CEv evs) = evs.
Proof.
  intros V evs (vs & t & -> & T). induction vs as [|v vs IH]; cbn.
  - tcases T; reflexivity.
  - now rewrite IH.
Qed.
