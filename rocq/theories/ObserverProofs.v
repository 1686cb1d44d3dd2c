From Verif Require Import Base ObserverSpec ObserverModel.

Section P.
  Context {V : Type}.
  Variable cb : list (ev V) -> V -> reaction.
  Variable cap : option nat.
  Variable ox : exn.

  Notation run := (o_run cb cap ox).
  Notation stp := (o_call cb cap ox).

  Local Arguments o_run : simpl never.
  Lemma run_cons : forall s c cs, run s (c :: cs) = run (stp s c) cs.
  Proof. reflexivity. Qed.
  Lemma run_nil : forall s, run s [] = s.
  Proof. reflexivity. Qed.

  Ltac ou := cbn in *; unfold o_on_next, o_on_error, o_on_completed, o_set_upstream, o_dispose, o_full in *; cbn in *.

  (** State invariant: open log is only values; closed log is grammatical;
      a terminal in the log implies the flag. *)
  Definition inv (s : ostate V) : Prop :=
    grammatical (o_log s) /\
    (o_flag s = false -> exists vs, o_log s = map Next vs) /\
    (o_flag s = true -> o_rel s = o_up s ++ skipn (length (o_up s)) (o_rel s)) /\
    (o_flag s = false -> o_rel s = []).

  Lemma gram_vals : forall vs : list V, grammatical (map Next vs).
  Proof. intros vs; exists vs, []; split; [now rewrite app_nil_r | now left]. Qed.
  Lemma gram_done : forall vs : list V, grammatical (map Next vs ++ [Done]).
  Proof. intros vs; exists vs, [Done]; split; [reflexivity | now right; left]. Qed.
  Lemma gram_err : forall (vs : list V) e, grammatical (map Next vs ++ [Err e]).
  Proof. intros vs e; exists vs, [Err e]; split; [reflexivity | right; right; now exists e]. Qed.
  Lemma map_snoc : forall (vs : list V) v, map (@Next V) vs ++ [Next v] = map Next (vs ++ [v]).
  Proof. intros; now rewrite map_app. Qed.

  Lemma inv_init : inv (o_init (V:=V)).
  Proof.
    repeat split; cbn; try discriminate; try reflexivity.
    - exact (gram_vals []).
    - now exists [].
  Qed.

  Lemma skipn_self : forall (A : Type) (l : list A), skipn (length l) l = [].
  Proof. intros A l; apply skipn_all2; lia. Qed.
  Lemma skipn_app_self : forall (A : Type) (l m : list A), skipn (length l) (l ++ m) = m.
  Proof. intros A l m; rewrite skipn_app, skipn_self, Nat.sub_diag; reflexivity. Qed.

  Lemma inv_step : forall s c, inv s -> inv (stp s c).
  Proof.
    intros s c (G & L & R & Z).
    destruct s as [f u r l]; cbn in *.
    destruct f.
    - (* disposed: only late set_upstream changes something *)
      destruct c as [[v|e|]|d|]; cbn; try (repeat split; cbn; auto; fail).
      repeat split; cbn; auto; try discriminate.
      intros _. specialize (R eq_refl). rewrite R at 1.
      rewrite <- app_assoc. f_equal. rewrite R at 2. rewrite <- app_assoc.
      rewrite skipn_app_self. reflexivity.
    - specialize (L eq_refl). specialize (Z eq_refl). destruct L as [vs ->]. subst r.
      destruct c as [[v|e|]|d|]; cbn.
      + destruct (cb _ v); unfold o_on_error, o_dispose; cbn;
          rewrite map_snoc; repeat split; cbn; try discriminate; intros;
          rewrite ?skipn_self, ?app_nil_r; eauto using gram_vals, gram_err.
      + repeat split; cbn; try discriminate; intros;
          rewrite ?skipn_self, ?app_nil_r; eauto using gram_vals, gram_err.
      + repeat split; cbn; try discriminate; intros;
          rewrite ?skipn_self, ?app_nil_r; eauto using gram_vals, gram_done.
      + unfold o_set_upstream, o_full; cbn.
        destruct (match cap with None => false | Some n => n <=? length u end); cbn;
          repeat split; cbn; try discriminate; intros;
          rewrite ?skipn_self, ?app_nil_r; eauto using gram_vals, gram_err.
      + repeat split; cbn; try discriminate; intros;
          rewrite ?skipn_self, ?app_nil_r; eauto using gram_vals.
  Qed.

  Lemma inv_run : forall cs s, inv s -> inv (run s cs).
  Proof. induction cs as [|c cs IH]; intros s H; [exact H | exact (IH _ (inv_step s c H))]. Qed.

  Lemma grammar_ok : forall cs, grammatical (o_log (run o_init cs)).
  Proof. intro cs; exact (proj1 (inv_run cs _ inv_init)). Qed.

  Lemma dead_step : forall s c, o_flag s = true ->
    o_flag (stp s c) = true /\ o_log (stp s c) = o_log s.
  Proof.
    intros [f u r l] c; cbn; intros ->.
    destruct c as [[v|e|]|d|]; cbn; auto.
  Qed.

  Lemma dead_run : forall cs s, o_flag s = true ->
    o_flag (run s cs) = true /\ o_log (run s cs) = o_log s.
  Proof.
    induction cs as [|c cs IH]; intros s H; [auto|]. rewrite run_cons.
    destruct (dead_step s c H) as [H1 H2].
    destruct (IH _ H1) as [H3 H4]. split; auto. now rewrite H4.
  Qed.

  Lemma term_flag : forall s, inv s -> has_terminal (o_log s) -> o_flag s = true.
  Proof.
    intros s (G & L & _) T. destruct (o_flag s) eqn:F; auto.
    destruct (L eq_refl) as [vs E]. exfalso. rewrite E in T. unfold has_terminal in T.
    destruct T as [T|[e T]]; apply in_map_iff in T; destruct T as [x [X _]]; discriminate.
  Qed.

  Lemma run_app : forall a b s, run s (a ++ b) = run (run s a) b.
  Proof. intros; unfold o_run; apply fold_left_app. Qed.

  (** Flag after a dispose call or terminal event call. *)
  Lemma stp_ends : forall s c,
    match c with CDispose => True | CEv (Err _) => True | CEv Done => True | _ => False end ->
    o_flag (stp s c) = true.
  Proof.
    intros [f u r l] c H; destruct c as [[v|e|]|d|]; cbn in *; try contradiction;
      destruct f; reflexivity.
  Qed.

  Lemma ended_by_call : forall cs s,
    (In CDispose cs \/ (exists e, In (CEv (Err e)) cs) \/ In (CEv Done) cs) ->
    o_flag (run s cs) = true.
  Proof.
    induction cs as [|c cs IH]; intros s H.
    - destruct H as [[]|[[e []]|[]]].
    - rewrite run_cons. destruct (match c with CDispose => true | CEv (Err _) => true | CEv Done => true | _ => false end) eqn:E.
      + apply dead_run. apply stp_ends. destruct c as [[?|?|]|?|]; now try discriminate.
      + apply IH. destruct H as [[->|H]|[[e [->|H]]|[->|H]]]; try discriminate; eauto.
  Qed.

  Lemma nothing_after : forall cs1 cs2,
    (In CDispose cs1 \/ has_terminal (o_log (run o_init cs1))) ->
    o_log (run o_init (cs1 ++ cs2)) = o_log (run o_init cs1).
  Proof.
    intros cs1 cs2 H. rewrite run_app. apply dead_run.
    destruct H as [H|H].
    - apply ended_by_call; auto.
    - apply term_flag; auto using inv_run, inv_init.
  Qed.

  (** Delivered values form a prefix of the live values. *)
  Lemma log_values_app : forall (a b : list (ev V)), log_values (a ++ b) = log_values a ++ log_values b.
  Proof. induction a as [|[v|e|] a IH]; intros; cbn; rewrite ?IH; auto. Qed.
  Lemma log_values_map : forall vs : list V, log_values (map Next vs) = vs.
  Proof. induction vs; cbn; congruence. Qed.

  Lemma values_prefix_gen : forall cs s, inv s -> o_flag s = false ->
    prefix (log_values (o_log (run s cs)))
           (log_values (o_log s) ++ log_values (live_events cs)).
  Proof.
    induction cs as [|c cs IH]; intros s I F.
    - exists []. cbn. now rewrite !app_nil_r.
    - assert (D: forall s', o_flag s' = true -> inv s' ->
                 forall tail, prefix (log_values (o_log s')) tail ->
                 prefix (log_values (o_log (run s' cs))) tail).
      { intros s' F' _ tl H. now rewrite (proj2 (dead_run cs s' F')). }
      pose proof (inv_step s c I) as I'.
      rewrite run_cons.
      destruct c as [[v|e|]|d|]; cbn [live_events log_values].
      + destruct (o_flag (stp s (CEv (Next v)))) eqn:F'.
        * apply D; auto. destruct s as [f u r l]; cbn in *; subst f; ou.
          destruct (cb l v); cbn in *; try discriminate; rewrite !log_values_app; cbn;
            exists (log_values (live_events cs)); rewrite <- ?app_assoc; reflexivity.
        * specialize (IH _ I' F').
          destruct s as [f u r l]; cbn in *; subst f; ou.
          destruct (cb l v); cbn in *; try discriminate.
          rewrite log_values_app in IH. cbn in IH.
          now rewrite <- app_assoc in IH.
      + apply D; [|assumption|].
        * apply stp_ends; exact Logic.I.
        * destruct s as [f u r l]; cbn in *; subst f; cbn. exists []. rewrite log_values_app; cbn.
          now rewrite !app_nil_r.
      + apply D; [|assumption|].
        * apply stp_ends; exact Logic.I.
        * destruct s as [f u r l]; cbn in *; subst f; cbn. exists []. rewrite log_values_app; cbn.
          now rewrite !app_nil_r.
      + destruct (o_flag (stp s (CUpstream d))) eqn:F'.
        * apply D; auto. destruct s as [f u r l]; cbn in *; subst f.
          unfold o_set_upstream, o_full in *; cbn in *.
          destruct (match cap with None => false | Some n => n <=? length u end); cbn in *; [|discriminate].
          rewrite log_values_app; cbn. rewrite app_nil_r. now exists (log_values (live_events cs)).
        * specialize (IH _ I' F').
          destruct s as [f u r l]; cbn in *; subst f.
          unfold o_set_upstream, o_full in *; cbn in *.
          destruct (match cap with None => false | Some n => n <=? length u end); cbn in *; [discriminate|].
          exact IH.
      + apply D; [|assumption|].
        * apply stp_ends; exact Logic.I.
        * destruct s as [f u r l]; cbn in *; subst f; cbn. exists []. now rewrite !app_nil_r.
  Qed.

  Lemma values_prefix : forall cs,
    prefix (log_values (o_log (run o_init cs))) (log_values (live_events cs)).
  Proof. intro cs. exact (values_prefix_gen cs _ inv_init eq_refl). Qed.

  (** Exact delivery for callbacks that always return normally. *)
  Lemma exact_gen : cap = None -> well_behaved cb -> forall cs s, o_flag s = false ->
    o_log (run s cs) = o_log s ++ live_events cs.
  Proof.
    intros C W. induction cs as [|c cs IH]; intros s F.
    - rewrite run_nil. cbn. now rewrite app_nil_r.
    - rewrite run_cons.
      destruct s as [f u r l]; cbn in F; subst f.
      destruct c as [[v|e|]|d|]; cbn [live_events].
      + rewrite IH; cbn; rewrite W; cbn; auto. now rewrite <- app_assoc.
      + rewrite (proj2 (dead_run cs (stp (OState false u r l) (CEv (Err e))) eq_refl)). reflexivity.
      + rewrite (proj2 (dead_run cs (stp (OState false u r l) (CEv Done)) eq_refl)). reflexivity.
      + rewrite IH; cbn; unfold o_set_upstream, o_full; rewrite C; reflexivity.
      + rewrite (proj2 (dead_run cs (stp (OState false u r l) CDispose) eq_refl)). cbn. now rewrite app_nil_r.
  Qed.

  Lemma exact_delivery : cap = None -> well_behaved cb -> forall cs,
    o_log (run o_init cs) = live_events cs.
  Proof. intros C W cs. exact (exact_gen C W cs o_init eq_refl). Qed.

  (** C02 *)
  Lemma throw_one_error : forall cs1 v e cs2,
    o_flag (run o_init cs1) = false ->
    cb (o_log (run o_init cs1)) v = RThrow e ->
    o_log (run o_init (cs1 ++ CEv (Next v) :: cs2)) = o_log (run o_init cs1) ++ [Next v; Err e].
  Proof.
    intros cs1 v e cs2 F T. rewrite run_app, run_cons.
    set (s := run o_init cs1) in *.
    assert (E: o_flag (stp s (CEv (Next v))) = true /\
               o_log (stp s (CEv (Next v))) = o_log s ++ [Next v; Err e]).
    { cbn. unfold o_on_next. rewrite F, T. cbn. now rewrite <- app_assoc. }
    destruct E as [E1 E2]. now rewrite (proj2 (dead_run cs2 _ E1)).
  Qed.

  Definition quits (h : list (ev V)) (v : V) : Prop := cb h v = RDispose \/ exists e, cb h v = RDisposeThrow e.
  Lemma dispose_inside : forall cs1 v cs2,
    o_flag (run o_init cs1) = false -> quits (o_log (run o_init cs1)) v ->
    o_log (run o_init (cs1 ++ CEv (Next v) :: cs2)) = o_log (run o_init cs1) ++ [Next v].
  Proof.
    intros cs1 v cs2 F T. rewrite run_app, run_cons. set (s := run o_init cs1) in *.
    assert (E: o_flag (stp s (CEv (Next v))) = true /\ o_log (stp s (CEv (Next v))) = o_log s ++ [Next v]).
    { cbn. unfold o_on_next. rewrite F. destruct T as [T|(e & T)]; rewrite T; cbn; unfold o_on_error, o_dispose; cbn; rewrite ?F; auto. }
    destruct E as [E1 E2]. now rewrite (proj2 (dead_run cs2 _ E1)).
  Qed.
  Lemma is_disposed_iff : forall cs, o_flag (run o_init cs) = true <->
    In CDispose cs \/ has_terminal (o_log (run o_init cs)) \/
    exists h v, o_log (run o_init cs) = h ++ [Next v] /\ quits h v.
  Proof.
    induction cs as [|c cs IH] using rev_ind.
    - split; [discriminate|]. intros [[]|[[[]|(e & [])]|(h & v & E & _)]]. now destruct h.
    - rewrite run_app, run_cons, run_nil. set (s := run o_init cs) in *.
      destruct (o_flag s) eqn:F.
      + pose proof (dead_run [c] s F) as D. rewrite run_cons, run_nil in D. destruct D as (D1 & D2). rewrite D1, D2.
        split; auto. intros _. destruct (proj1 IH eq_refl) as [I|I]; auto. left. apply in_or_app. auto.
      + assert (NI : ~ In CDispose cs /\ ~ has_terminal (o_log s) /\ ~ exists h v, o_log s = h ++ [Next v] /\ quits h v).
        { split; [|split]; intro X; assert (false = true) by (apply IH; auto); discriminate. }
        destruct NI as (N1 & N2 & N3).
        assert (HT : forall l (e : ev V), is_term e = true -> has_terminal (l ++ [e])).
        { intros l [v|e|] T; try discriminate; [right; exists e|left]; apply in_or_app; right; now left. }
        destruct c as [[v|e|]|d|]; cbn.
        * unfold o_on_next. rewrite F. destruct (cb (o_log s) v) as [|e| |e] eqn:R; cbn; unfold o_on_error, o_dispose; cbn; rewrite ?F; cbn.
          -- split; [congruence|]. intros [I|[I|(h & w & E & Q)]].
             ++ apply in_app_or in I as [I|[I|[]]]; [contradiction|discriminate].
             ++ destruct N2. destruct I as [I|(e & I)]; [left|right; exists e]; apply in_app_or in I as [I|[I|[]]]; auto; discriminate.
             ++ apply app_inj_tail in E as (<- & E). inversion E; subst. destruct Q as [Q|(e & Q)]; congruence.
          -- split; [intros _; right; left; now apply HT|auto].
          -- split; auto. intros _. right. right. exists (o_log s), v. split; auto. now left.
          -- split; auto. intros _. right. right. exists (o_log s), v. split; auto. right. eauto.
        * unfold o_on_error, o_dispose. rewrite ?F; cbn; rewrite ?F; cbn. split; [intros _; right; left; now apply HT|auto].
        * unfold o_on_completed, o_dispose. rewrite ?F; cbn; rewrite ?F; cbn. split; [intros _; right; left; now apply HT|auto].
        * unfold o_set_upstream. rewrite F. destruct (o_full cap s).
          -- unfold o_on_error, o_dispose. rewrite ?F; cbn; rewrite ?F; cbn. split; [intros _; right; left; now apply HT|auto].
          -- cbn. split; [discriminate|]. intros [I|I]; exfalso; [apply in_app_or in I as [I|[I|[]]]; [contradiction|discriminate]|].
             destruct I; auto.
        * unfold o_dispose. rewrite F. cbn. split; auto. intros _. left. apply in_or_app. right. now left.
  Qed.

  (** C03: releases *)
  Lemma upstreams_app : forall a b : list (call V), upstreams (a ++ b) = upstreams a ++ upstreams b.
  Proof. induction a as [|[?|?|] a IH]; intros; cbn; rewrite ?IH; auto. Qed.

  Lemma release_gen : cap = None -> forall cs s,
    (o_flag s = true ->
       o_rel (run s cs) = o_rel s ++ upstreams cs) /\
    (o_flag s = false -> o_rel s = [] ->
       if o_flag (run s cs) then o_rel (run s cs) = o_up s ++ upstreams cs
       else o_rel (run s cs) = [] /\ o_up (run s cs) = o_up s ++ upstreams cs).
  Proof.
    intro C. induction cs as [|c cs IH]; intros s.
    - rewrite run_nil. cbn. split; intros F; [now rewrite app_nil_r|]. intro R. rewrite F.
      now rewrite app_nil_r.
    - rewrite run_cons.
      assert (D1: forall s', o_flag s' = true -> o_rel (run s' cs) = o_rel s' ++ upstreams cs)
        by (intro s'; apply (IH s')).
      assert (D2: forall s' tl, o_flag s' = true -> o_rel s' ++ upstreams cs = tl ->
         if o_flag (run s' cs) then o_rel (run s' cs) = tl
         else o_rel (run s' cs) = [] /\ o_up (run s' cs) = tl).
      { intros s' tl E1 E2. rewrite (proj1 (dead_run cs s' E1)), D1; auto. }
      destruct s as [f u r l]; split; cbn; intros F; subst f.
      + destruct c as [[v|e|]|d|]; rewrite D1; cbn; auto. now rewrite <- app_assoc.
      + intros ->.
        destruct c as [[v|e|]|d|]; ou.
        * destruct (cb l v); cbn; [|apply D2; reflexivity..].
          exact (proj2 (IH (OState false u [] (l ++ [Next v]))) eq_refl eq_refl).
        * apply D2; reflexivity.
        * apply D2; reflexivity.
        * assert (X : match cap with None => false | Some n => n <=? length u end = false)
            by (rewrite C; reflexivity).
          rewrite X; cbn.
          pose proof (proj2 (IH (OState false (u ++ [d]) [] l)) eq_refl eq_refl) as H. cbn in H.
          rewrite <- app_assoc in H. exact H.
        * apply D2; reflexivity.
  Qed.

  Lemma release_all : cap = None -> forall cs,
    (In CDispose cs \/ has_terminal (o_log (run o_init cs))) ->
    o_rel (run o_init cs) = upstreams cs.
  Proof.
    intros C cs H.
    pose proof (proj2 (release_gen C cs o_init) eq_refl eq_refl) as R.
    assert (F: o_flag (run o_init cs) = true).
    { destruct H; [apply ended_by_call; auto | apply term_flag; auto using inv_run, inv_init]. }
    now rewrite F in R.
  Qed.

  Lemma released_iff : cap = None -> forall cs,
    o_rel (run o_init cs) = if o_flag (run o_init cs) then upstreams cs else [].
  Proof.
    intros C cs. pose proof (proj2 (release_gen C cs o_init) eq_refl eq_refl) as R.
    destruct (o_flag (run o_init cs)); [exact R|exact (proj1 R)].
  Qed.

  Lemma no_early_release : forall cs,
    (forall h v, cb h v <> RDispose /\ (forall e, cb h v <> RDisposeThrow e)) ->
    ~ In CDispose cs -> ~ has_terminal (o_log (run o_init cs)) ->
    o_rel (run o_init cs) = [].
  Proof.
    intros cs W ND NT.
    assert (K: forall cs s, ~ In CDispose cs -> o_flag s = false ->
       o_flag (run s cs) = true -> has_terminal (o_log (run s cs))).
    { clear cs ND NT. induction cs as [|c cs IH]; intros s ND F F'; [rewrite run_nil in F'; congruence|].
      rewrite run_cons in *.
      destruct (o_flag (stp s c)) eqn:E.
      - rewrite (proj2 (dead_run cs _ E)).
        destruct s as [f u r l]; cbn in F; subst f.
        destruct c as [[v|e|]|d|]; cbn in E |- *; unfold o_on_next, o_set_upstream, o_on_error, o_on_completed, o_dispose in *; cbn in *.
        + specialize (W l v). destruct (cb l v); cbn in *; try discriminate.
          * right; exists e; apply in_or_app; right; now left.
          * now destruct W.
          * destruct W as [_ W]. now destruct (W e).
        + right; exists e; apply in_or_app; right; now left.
        + left; apply in_or_app; right; now left.
        + destruct (o_full cap (OState false u r l)); cbn in *; [|discriminate].
          right; exists ox; apply in_or_app; right; now left.
        + exfalso; apply ND; now left.
      - apply IH; auto. intro H; apply ND; now right. }
    destruct (inv_run cs _ inv_init) as (_ & _ & _ & Z).
    destruct (o_flag (run o_init cs)) eqn:E; auto.
    exfalso. apply NT. apply (K cs o_init); auto.
  Qed.

  (** Fixed capacity: same as dynamic while the number of upstreams fits. *)
  Lemma capped_same : forall n cs s,
    cap = Some n -> length (o_up s) + length (upstreams cs) <= n ->
    run s cs = o_run cb None ox s cs.
  Proof.
    intros n cs. induction cs as [|c cs IH]; intros s C H; [reflexivity|].
    rewrite run_cons. change (o_run cb None ox s (c :: cs)) with (o_run cb None ox (o_call cb None ox s c) cs).
    assert (E: o_call cb cap ox s c = o_call cb None ox s c).
    { destruct c as [e|d|]; cbn; auto. unfold o_set_upstream, o_full. rewrite C.
      cbn in H. destruct (o_flag s); auto.
      destruct (n <=? length (o_up s)) eqn:L; auto. apply Nat.leb_le in L. lia. }
    rewrite E. apply IH; auto. clear IH E.
    destruct s as [f u r l].
    destruct c as [[v|e|]|d|]; ou; destruct f; cbn in *; auto; try lia.
    - destruct (cb l v); cbn; auto.
    - rewrite app_length; cbn; lia.
  Qed.
End P.
