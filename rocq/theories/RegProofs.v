(** Parts split off and merged again. *)
From Coq Require Import Sorted.
From Verif Require Import Base Machine MachineProofs ObserverModel MultiSpec MultiModel MultiLin MultiCount MultiProofs MultiSeq MultiProps OpsSpec OpsModel ChainSpec ChainModel ChainProofs.
From Verif Require Import TreeSpec TreeModel TreeEnd FairModel FairHist SubjSpec FanSpec FanModel RegSpec RegModel.
Open Scope nat_scope.

(** ** Every chain ends when its source ends *)
Lemma term_app : forall A (vs : list A) t, term (map Next vs ++ t) = term t.
Proof. induction vs; cbn; auto. Qed.
Local Arguments Nat.ltb : simpl never.
Lemma op_ends : forall A B (o : libop A B) vs t, tpart t -> t <> [] -> term (op_spec o vs t) <> None.
Proof.
  intros A B o vs t T N. assert (T1 : term t <> None) by (destruct T as [->|[->|(x & ->)]]; [congruence|discriminate|discriminate]).
  destruct o; cbn.
  - induction vs as [|v vs IH]; cbn; auto. destruct (r v); auto. discriminate.
  - induction vs as [|v vs IH]; cbn; auto. destruct (r v) as [[|]|]; auto. discriminate.
  - unfold take_spec. destruct (length vs <? _); rewrite term_app; auto; discriminate.
  - unfold skip_spec. rewrite term_app; auto.
  - unfold element_at_spec, done_to_err. destruct (nth_error vs n); [discriminate|]. destruct T as [->|[->|(x & ->)]]; try congruence; discriminate.
  - unfold first_spec, done_to_err. destruct vs; [|discriminate]. destruct T as [->|[->|(x & ->)]]; try congruence; discriminate.
  - unfold last_spec. destruct T as [->|[->|(x & ->)]]; try congruence; try discriminate. destruct (rev vs); discriminate.
  - induction vs as [|v vs IH]; cbn; auto. destruct (r v) as [[|]|]; auto; discriminate.
  - unfold take_last_spec. destruct T as [->|[->|(x & ->)]]; try congruence; try discriminate. rewrite term_app. discriminate.
  - unfold distinct_spec. rewrite term_app; auto.
  - unfold duc_spec. destruct vs as [|v vs]; auto. cbn [term]. revert v. induction vs as [|w vs IH]; intro v; cbn; auto. destruct (r v w) as [[|]|]; cbn; auto; discriminate.
  - unfold scan_spec. cbn [term]. revert b. induction vs as [|v vs IH]; intro b; cbn; auto. destruct (r b v); cbn; auto. discriminate.
  - unfold scan1_spec. destruct vs as [|v vs]; auto. cbn [term]. revert v. induction vs as [|w vs IH]; intro v; cbn; auto. destruct (r v w); cbn; auto. discriminate.
  - unfold reduce_spec. destruct (foldr_res r b vs); [|discriminate]. destruct T as [->|[->|(x & ->)]]; try congruence; discriminate.
  - unfold reduce1_spec, reduce_spec. destruct vs as [|v vs]; auto.
    destruct (foldr_res r v vs); [|discriminate]. destruct T as [->|[->|(x & ->)]]; try congruence; discriminate.
  - match goal with |- context [buffer_fun ?x _ _ _] => generalize x as k end. intro k.
    assert (H: forall vs b, term (buffer_fun k b vs t) <> None); [|apply H].
    clear vs. induction vs as [|v vs IH]; intro b; cbn.
    + destruct T as [->|[->|(x & ->)]]; try congruence; try discriminate. destruct b; cbn; discriminate.
    + destruct (length (b ++ [v]) =? k); cbn; auto.
  - induction vs as [|v vs IH]; cbn; auto. destruct (r v); auto. discriminate.
  - unfold throttle_spec. destruct vs as [|[now v] vs]; auto. cbn [term]. revert now.
    induction vs as [|[n' w] vs IH]; intro now; cbn; auto. destruct (n' <? now + n); cbn; auto.
Qed.
Lemma term_list_some : forall A B (l : list (ev A)), term l <> None -> @term_list A B l <> [].
Proof. intros A B l H. unfold term_list. destruct (term l) as [[v|x|]|] eqn:Q; try congruence. exfalso. clear H. induction l as [|[w|y|] l IH]; cbn in Q; try discriminate. auto. Qed.
Lemma chain_ends : forall A C (c : chain A C) l, term l <> None -> term (chain_spec c l) <> None.
Proof.
  induction c as [A|A B C o r IH]; intros l H; auto. cbn. apply IH. apply op_ends; [apply term_list_tpart|now apply term_list_some].
Qed.

(** ** The chain of one part *)
Section Part.
  Context {A C : Type} (c : chain A C).
  Notation M := (build c (record_of C)).
  Definition after (l : list (ev A)) : mst M := mrun M (build_init c (record_of C) o_init) l.
  Lemma log_after : forall l, fl_log c (after l) = shown c l.
  Proof. intro l. unfold fl_log, after, shown. rewrite (build_refines _ _ c (record_of C) (leaf_lawful _ _)). apply record_heard. Qed.
  Lemma after_snoc : forall l e, mstep M (after l) e = after (l ++ [e]).
  Proof. intros. unfold after. now rewrite mrun_app. Qed.
  Lemma after_nil : build_init c (record_of C) o_init = after [].
  Proof. reflexivity. Qed.
  Lemma shown_grows : forall l e, shown c (l ++ [e]) = shown c l ++ more c l e.
  Proof.
    intros l e. assert (G : exists l', shown c (l ++ [e]) = shown c l ++ l').
    { rewrite <- !log_after. rewrite <- after_snoc. unfold fl_log. change (mstep M (after l) e) with (mrun M (after l) [e]).
      destruct (build_reaches _ _ c (record_of C) (after l) [e]) as (l' & E). rewrite E. apply record_grows. }
    destruct G as (l' & G). unfold more. rewrite G. now rewrite skipn_app, skipn_all, Nat.sub_diag.
  Qed.
  Lemma heard_clean : forall l : list (ev C), clean (heard l).
  Proof.
    intro l. exists (map Next (vals l)), (term_list l). split; auto. split; [apply Forall_forall; intros e I; apply in_map_iff in I; destruct I as (v & <- & _); reflexivity|].
    unfold term_list. destruct (term l) as [[v|x|]|]; cbn; lia.
  Qed.
  Lemma shown_end : forall l, term l <> None -> In Done (shown c l) \/ exists x, In (Err x) (shown c l).
  Proof.
    intros l H. apply (chain_ends _ _ c) in H. unfold shown, heard. destruct (term (chain_spec c l)) as [[v|x|]|] eqn:Q; try congruence.
    - exfalso. clear H. revert Q. generalize (chain_spec c l). intro q. induction q as [|[w|y|] q IH]; cbn; try discriminate. auto.
    - right. exists x. apply in_or_app. right. unfold term_list. rewrite Q. now left.
    - left. apply in_or_app. right. unfold term_list. rewrite Q. now left.
  Qed.
End Part.

(** ** Calls until the subscriber is over *)
Section Until.
  Context {C : Type} (o : MultiModel.mop (unit + C) C) (D : machine C) (L : lawful D) (d0 : mst D) (out : hist (unit + C) -> nat -> ev (unit + C) -> list (ev C)).
  Hypothesis DOWN : forall h g, seq_run o D (fun _ => []) (g_init o D d0) h = Some g -> g_down g = mrun D d0 (outs out h).
  Hypothesis ACC : forall h g i e, seq_run o D (fun _ => []) (g_init o D d0) h = Some g -> mdisp D (g_down g) = false -> i <= opened (live h) ->
    exists g', run1 o D (fun _ => []) 20 g i e P0 = Some g'.
  Definition fed (h : hist (unit + C)) : Prop := forall a i e b, h = a ++ (i, e) :: b -> i <= opened (live a).
  Lemma outs_prefix : forall h a, exists r, outs out (a ++ h) = outs out a ++ r.
  Proof.
    induction h as [|(i, e) h IH] using rev_ind; intro a; [exists []; now rewrite !app_nil_r|]. rewrite app_assoc, outs_snoc. destruct (IH a) as (r & ->). eexists. rewrite <- app_assoc. reflexivity.
  Qed.
  Lemma until_run : forall h a g, seq_run o D (fun _ => []) (g_init o D d0) a = Some g -> fed (a ++ h) ->
    exists g', until_over o D g h = Some g' /\ g_down g' = mrun D d0 (outs out (a ++ h)).
  Proof.
    induction h as [|(i, e) h IH]; intros a g G F.
    - exists g. split; auto. rewrite app_nil_r. auto.
    - cbn [until_over]. destruct (mdisp D (g_down g)) eqn:Q.
      + exists g. split; auto. destruct (outs_prefix ((i, e) :: h) a) as (r & ->). rewrite mrun_app, <- (DOWN a g G). symmetry. now apply mrun_dead.
      + destruct (ACC a g i e G Q (F a i e h eq_refl)) as (g1 & R). rewrite R.
        destruct (IH (a ++ [(i, e)]) g1) as (g' & U & E).
        * rewrite seq_run_app, G. cbn [seq_run]. now rewrite R.
        * now rewrite <- app_assoc.
        * exists g'. split; auto. rewrite E, <- app_assoc. reflexivity.
  Qed.
End Until.

Lemma until_merge : forall C (D : machine C) d0 h, lawful D -> fed h -> exists g, until_over (merge_op C) D (g_init _ D d0) h = Some g /\ g_down g = mrun D d0 (outs merge_out h).
Proof.
  intros C D d0 h L F. apply (until_run (merge_op C) D L d0 merge_out) with (a := []); auto.
  - intros a g G. eapply merge_seq_inv; eauto.
  - intros a g i e G Q LE. destruct (merge_seq_full C D d0 a g L G) as (LK & _ & S1). specialize (S1 Q). destruct g as [lk s own d]. cbn [g_lock g_op] in *. subst lk.
    destruct (merge_call C D s own d i e ltac:(lia)) as (s' & o' & d' & E & _). eauto.
Qed.
Lemma until_switch : forall C (D : machine C) d0 h, lawful D -> fed h -> exists g, until_over (switch_op C) D (g_init _ D d0) h = Some g /\ g_down g = mrun D d0 (outs switch_out h).
Proof.
  intros C D d0 h L F. apply (until_run (switch_op C) D L d0 switch_out) with (a := []); auto.
  - intros a g G. eapply C34_switch_partial; eauto.
  - intros a g i e G Q LE. destruct (C34_switch_accepts C D L d0 a g i e G Q LE) as (g' & E). rewrite seq_run_app, G in E. cbn [seq_run] in E.
    destruct (run1 _ _ _ _ g i e P0) as [g1|]; [eauto|discriminate].
Qed.

(** ** What comes through *)
Definition passed1 {C} (i : nat) (e : ev (unit + C)) : list (ev C) :=
  match e with Next (inr v) => [Next v] | Next (inl _) => [] | Err x => [Err x] | Done => [] end.
Definition passed {C} (h : hist (unit + C)) : list (ev C) := flat_map (fun x => passed1 (fst x) (snd x)) h.
Lemma passed_app : forall C (a b : hist (unit + C)), passed (a ++ b) = passed a ++ passed b.
Proof. intros. apply flat_map_app. Qed.
Lemma passed_calls : forall C j (l : list (ev C)), passed (calls_of j l) = open_end l.
Proof. intros C j l. unfold passed, calls_of. induction l as [|e l IH]; auto. cbn [map flat_map fst snd]. rewrite IH. destruct e; reflexivity. Qed.
Lemma outs_passed : forall C (out : hist (unit + C) -> nat -> ev (unit + C) -> list (ev C)) h p,
  (forall a i e b, h = a ++ (i, e) :: b -> out (p ++ a) i e = passed1 i e) -> outs_from out p h = passed h.
Proof.
  intros C out. induction h as [|(i, e) h IH]; intros p H; auto. cbn [outs_from]. pose proof (H [] i e h eq_refl) as E. rewrite app_nil_r in E. rewrite E. cbn [passed flat_map fst snd]. f_equal.
  apply IH. intros a j x b Q. rewrite <- app_assoc. apply (H ((i, e) :: a) j x b). now rewrite Q.
Qed.

(** ** Scripts *)
Lemma split_mid : forall X (h l a b : list X) x, h ++ l = a ++ x :: b ->
  (exists b', h = a ++ x :: b') \/ (exists a', a = h ++ a' /\ l = a' ++ x :: b).
Proof.
  induction h as [|y h IH]; intros l a b x E.
  - right. exists a. auto.
  - destruct a as [|z a]; cbn in E; injection E as E1 E2.
    + left. subst. now exists h.
    + subst z. destruct (IH _ _ _ _ E2) as [(b' & ->)|(a' & -> & ->)]; [left; now exists b'|right; now exists a'].
Qed.
Lemma opened_app : forall V (a b : hist (unit + V)), opened (a ++ b) = opened a + opened b.
Proof. intros. unfold opened. now rewrite filter_app, app_length. Qed.
Lemma opened_calls : forall C j (l : list (ev C)), opened (calls_of j l) = 0.
Proof. intros C j l. unfold opened, calls_of. induction l; auto. Qed.
Lemma proj_calls : forall C i j (l : list (ev C)), proj i (calls_of j l) = if S j =? i then map inner l else [].
Proof. intros C i j l. unfold proj, calls_of. induction l as [|e l IH]; cbn [map flat_map fst snd]; [now destruct (S j =? i)|]. rewrite IH. destruct (S j =? i); auto. Qed.
Lemma clean_prefix : forall A (a b : list (ev A)), clean (a ++ b) -> clean a.
Proof.
  intros A a b (p & q & E & F & L). destruct (Nat.le_gt_cases (length a) (length p)) as [H|H].
  - exists a, []. rewrite app_nil_r. split; auto. split; [|cbn; lia]. assert (Q : a = firstn (length a) p).
    { apply (f_equal (firstn (length a))) in E. rewrite firstn_app, firstn_all, Nat.sub_diag in E. cbn in E. rewrite app_nil_r, firstn_app in E.
      replace (length a - length p) with 0 in E by lia. cbn in E. now rewrite app_nil_r in E. }
    rewrite Q. rewrite <- (firstn_skipn (length a) p) in F. apply Forall_app in F. apply F.
  - exists p, (skipn (length p) a). assert (Q : p = firstn (length p) a).
    { apply (f_equal (firstn (length p))) in E. rewrite firstn_app in E. replace (length p - length a) with 0 in E by lia. cbn in E. rewrite app_nil_r in E.
      rewrite firstn_app, firstn_all, Nat.sub_diag in E. cbn in E. now rewrite app_nil_r in E. }
    split; [rewrite Q at 1; symmetry; apply firstn_skipn|]. split; auto. rewrite skipn_length. apply (f_equal (@length _)) in E. rewrite !app_length in E. lia.
Qed.
Lemma clean_inner : forall C (l : list (ev C)), clean l -> clean (map inner l).
Proof.
  intros C l (a & b & -> & F & L). exists (map inner a), (map inner b). rewrite map_app, map_length. repeat split; auto.
  apply Forall_forall. intros e I. apply in_map_iff in I. destruct I as (x & <- & I). rewrite Forall_forall in F. specialize (F x I). now destruct x.
Qed.
Lemma pos_in : forall k l, In k l -> nth_error l (pos k l) = Some k.
Proof. induction l as [|x l IH]; cbn; [easy|]. intro I. destruct (Nat.eqb_spec x k) as [->|N]; auto. destruct I; [easy|]. cbn. auto. Qed.
Lemma pos_lt : forall k l, In k l -> pos k l < length l.
Proof. intros. apply nth_error_Some. now rewrite pos_in. Qed.

Section Script.
  Context {A C : Type} (c : chain A C).
  Definition upd (f : nat -> list (ev A)) (k : nat) (l : list (ev A)) : nat -> list (ev A) := fun i => if i =? k then l else f i.
  Record track (sw : bool) (x : flat c) (lf : nat -> list (ev A)) (h : hist (unit + C)) : Prop := TK {
    tk_nd : NoDup (fl_parts c x);
    tk_st : forall k, In k (fl_parts c x) -> fl_st c x k = after c (lf k);
    tk_0 : proj 0 h = repeat (Next (inl tt)) (length (fl_parts c x));
    tk_i : forall i, proj (S i) h = match nth_error (fl_parts c x) i with Some k => map inner (shown c (lf k)) | None => [] end;
    tk_op : opened h = length (fl_parts c x);
    tk_fed : forall a i e b, h = a ++ (i, e) :: b -> i <= opened a;
    tk_sw : sw = true -> forall a i e b, h = a ++ (i, e) :: b -> i = 0 \/ i = opened a }.

  Lemma track_init : forall sw, track sw (fl_init c) (fun _ => []) [].
  Proof.
    intro sw. constructor; cbn; auto; try easy.
    - constructor.
    - intro i. now destruct i.
    - intros a i e b E. now destruct a.
    - intros _ a i e b E. now destruct a.
  Qed.
  Lemma calls_mid : forall j (l : list (ev C)) a i e b, calls_of j l = a ++ (i, e) :: b -> i = S j /\ opened a = 0.
  Proof.
    intros j l a i e b E. split.
    - assert (I : In (i, e) (calls_of j l)) by (rewrite E; apply in_or_app; right; now left). unfold calls_of in I. apply in_map_iff in I. destruct I as (y & Q & _). now injection Q as <- _.
    - pose proof (opened_calls C j l) as Z. rewrite E, opened_app in Z. lia.
  Qed.
  Lemma track_new : forall sw x lf h k, track sw x lf h -> ~ In k (fl_parts c x) ->
    track sw (fst (flat_step c x (MNew k))) (upd lf k []) (h ++ snd (flat_step c x (MNew k))) /\ passed (snd (flat_step c x (MNew k))) = open_end (shown c []).
  Proof.
    intros sw x lf h k [ND ST P0' PI OP FD SW] N. cbn [flat_step fst snd fl_parts fl_st]. rewrite after_nil, log_after. set (l0 := calls_of (length (fl_parts c x)) (shown c [])).
    split; [|change (passed ((0, Next (inl tt)) :: l0)) with (passed l0); apply passed_calls].
    assert (NE : forall j, In j (fl_parts c x) -> (j =? k) = false) by (intros j I; apply Nat.eqb_neq; congruence).
    constructor; cbn [fl_parts fl_st].
    - rewrite <- (rev_involutive (fl_parts c x ++ [k])). apply NoDup_rev. rewrite rev_app_distr. cbn. constructor; [now rewrite <- in_rev|]. now apply NoDup_rev.
    - intros j I. unfold set_part, upd. apply in_app_or in I. destruct I as [I|[<-|[]]]; [rewrite NE by auto; auto|now rewrite Nat.eqb_refl].
    - rewrite proj_app, P0', app_length, repeat_app. f_equal. cbn [proj flat_map fst snd Nat.eqb]. fold (proj 0 l0). unfold l0. rewrite proj_calls. reflexivity.
    - intro i. rewrite proj_app, PI. change (proj (S i) ((0, Next (inl tt)) :: l0)) with (proj (S i) l0). unfold l0. rewrite proj_calls. cbn [Nat.eqb].
      destruct (Nat.eqb_spec (length (fl_parts c x)) i) as [<-|Q].
      + rewrite (proj2 (nth_error_None _ _)) by lia. rewrite nth_error_app2, Nat.sub_diag by lia. cbn. unfold upd. now rewrite Nat.eqb_refl.
      + rewrite app_nil_r. destruct (Nat.lt_ge_cases i (length (fl_parts c x))) as [G|G].
        * rewrite nth_error_app1 by auto. destruct (nth_error (fl_parts c x) i) as [j|] eqn:E; auto. unfold upd. rewrite NE; auto. eapply nth_error_In; eauto.
        * rewrite (proj2 (nth_error_None _ _)) by lia. rewrite (proj2 (nth_error_None _ _)); auto. rewrite app_length. cbn. lia.
    - rewrite opened_app, OP, app_length. f_equal. change (opened ((0, Next (inl tt)) :: l0)) with (S (opened l0)). unfold l0. now rewrite opened_calls.
    - intros a i e b E. destruct (split_mid _ _ _ _ _ _ E) as [(b' & Q)|(a' & -> & Q)]; [eauto|]. rewrite opened_app, OP. destruct a' as [|y a']; cbn in Q; injection Q as Q1 Q2; [subst; lia|].
      subst y. destruct (calls_mid _ _ _ _ _ _ Q2) as (-> & Z). change (opened ((0, Next (inl tt)) :: a')) with (S (opened a')). lia.
    - intros S1 a i e b E. destruct (split_mid _ _ _ _ _ _ E) as [(b' & Q)|(a' & -> & Q)]; [eauto|]. rewrite opened_app, OP. destruct a' as [|y a']; cbn in Q; injection Q as Q1 Q2; [subst; now left|].
      subst y. destruct (calls_mid _ _ _ _ _ _ Q2) as (-> & Z). right. change (opened ((0, Next (inl tt)) :: a')) with (S (opened a')). lia.
  Qed.
  Lemma track_emit : forall sw x lf h k e, track sw x lf h -> In k (fl_parts c x) -> (sw = true -> S (pos k (fl_parts c x)) = length (fl_parts c x)) ->
    track sw (fst (flat_step c x (MEmit k e))) (upd lf k (lf k ++ [e])) (h ++ snd (flat_step c x (MEmit k e))) /\ passed (snd (flat_step c x (MEmit k e))) = open_end (more c (lf k) e).
  Proof.
    intros sw x lf h k e [ND ST P0' PI OP FD SW] I LAST. cbn [flat_step fst snd fl_parts fl_st]. rewrite (ST k I), after_snoc, !log_after. fold (more c (lf k) e). split; [|apply passed_calls].
    pose proof (pos_lt _ _ I) as LT.
    constructor; cbn [fl_parts fl_st]; auto.
    - intros j J. unfold set_part, upd. destruct (j =? k); auto.
    - rewrite proj_app, P0', proj_calls. cbn. now rewrite app_nil_r.
    - intro i. rewrite proj_app, PI, proj_calls. cbn [Nat.eqb]. destruct (Nat.eqb_spec (pos k (fl_parts c x)) i) as [<-|Q].
      + rewrite pos_in by auto. unfold upd. rewrite Nat.eqb_refl, shown_grows, map_app. reflexivity.
      + rewrite app_nil_r. destruct (nth_error (fl_parts c x) i) as [j|] eqn:E; auto. unfold upd. destruct (Nat.eqb_spec j k) as [->|]; auto. exfalso. apply Q.
        eapply (proj1 (NoDup_nth_error _) ND); auto. now rewrite pos_in.
    - now rewrite opened_app, OP, opened_calls, Nat.add_0_r.
    - intros a i y b E. destruct (split_mid _ _ _ _ _ _ E) as [(b' & Q)|(a' & -> & Q)]; [eauto|]. rewrite opened_app, OP. destruct (calls_mid _ _ _ _ _ _ Q) as (-> & Z). lia.
    - intros S1 a i y b E. destruct (split_mid _ _ _ _ _ _ E) as [(b' & Q)|(a' & -> & Q)]; [eauto|]. rewrite opened_app, OP. destruct (calls_mid _ _ _ _ _ _ Q) as (-> & Z). right. specialize (LAST S1). lia.
  Qed.

  (** ** The end *)
  Section End.
    Variables (sw : bool) (x : flat c) (lf : nat -> list (ev A)) (h : hist (unit + C)).
    Hypothesis T : track sw x lf h.
    Lemma tk_clean : forall t i, length t <= 1 -> clean (proj i (h ++ map (pair 0) t)).
    Proof.
      intros t i L. rewrite proj_app. destruct i as [|i].
      - rewrite (tk_0 _ _ _ _ T). exists (repeat (Next (inl tt)) (length (fl_parts c x))), (proj 0 (map (pair 0) t)). split; auto. split.
        + apply Forall_forall. intros e I. apply repeat_spec in I. now subst.
        + destruct t as [|e [|? ?]]; cbn in *; lia.
      - replace (proj (S i) (map (pair 0) t)) with (@nil (ev (unit + C))) by (clear; induction t; auto). rewrite app_nil_r, (tk_i _ _ _ _ T).
        destruct (nth_error _ i); [|exists [], []; cbn; auto]. apply clean_inner, heard_clean.
    Qed.
    Lemma tk_live : forall t, length t <= 1 -> live (h ++ map (pair 0) t) = h ++ map (pair 0) t.
    Proof. intros t L. apply live_clean. intro i. now apply tk_clean. Qed.
    Lemma tk_done : forall a i e b, h = a ++ (i, e) :: b -> completed 0 (a ++ [(i, e)]) = false.
    Proof.
      intros a i e b E. rewrite completed_proj. pose proof (tk_0 _ _ _ _ T) as Z. rewrite E in Z. replace (a ++ (i, e) :: b) with ((a ++ [(i, e)]) ++ b) in Z by (now rewrite <- app_assoc).
      rewrite proj_app in Z. apply Bool.not_true_is_false. intro Q. apply existsb_exists in Q. destruct Q as (y & I & D). assert (J : In y (repeat (Next (inl tt) : ev (unit + C)) (length (fl_parts c x)))) by (rewrite <- Z; apply in_or_app; now left).
      apply repeat_spec in J. now subst.
    Qed.
    Lemma tk_zero : forall a e b, h = a ++ (0, e) :: b -> e = Next (inl tt).
    Proof.
      intros a e b E. pose proof (tk_0 _ _ _ _ T) as Z. rewrite E, proj_app in Z. cbn [proj flat_map fst snd Nat.eqb app] in Z.
      eapply repeat_spec. rewrite <- Z. apply in_or_app. right. now left.
    Qed.
    Lemma tk_merge : outs_from merge_out [] h = passed h.
    Proof.
      apply outs_passed. intros a i e b E. pose proof (tk_done _ _ _ _ E) as N. cbn [app]. destruct e as [[u|v]| |]; cbn [merge_out passed1]; auto.
      - destruct i as [|i]; auto. apply tk_zero in E. discriminate.
      - cbn [seq forallb]. now rewrite N.
    Qed.
    Lemma tk_switch : sw = true -> outs_from switch_out [] h = passed h.
    Proof.
      intro S1. apply outs_passed. intros a i e b E. pose proof (tk_done _ _ _ _ E) as N. cbn [app]. unfold switch_out.
      replace ((i =? 0) || (i =? opened a)) with true by (symmetry; apply orb_true_iff; destruct (tk_sw _ _ _ _ T S1 a i e b E) as [->| ->]; [now left|right; apply Nat.eqb_refl]).
      destruct e as [[u|v]| |]; cbn [passed1]; auto.
      - destruct i as [|i]; auto. apply tk_zero in E. discriminate.
      - now rewrite N.
    Qed.
    Lemma tk_fed_all : forall t, length t <= 1 -> fed (h ++ map (pair 0) t).
    Proof.
      intros t L a i e b E. replace (live a) with a.
      - destruct (split_mid _ _ _ _ _ _ E) as [(b' & Q)|(a' & -> & Q)]; [eapply tk_fed; eauto|].
        assert (I : In (i, e) (map (pair 0) t)) by (rewrite Q; apply in_or_app; right; now left). apply in_map_iff in I. destruct I as (y & Z & _). injection Z as <- _. lia.
      - symmetry. apply live_clean. intro j. apply (clean_prefix _ _ (proj j ((i, e) :: b))). rewrite <- proj_app, <- E. now apply tk_clean.
    Qed.
    Hypothesis ENDED : forall k, In k (fl_parts c x) -> term (lf k) <> None.
    Lemma in_proj : forall i e, In e (proj i h) -> In (i, e) h.
    Proof. intros i e I. unfold proj in I. apply in_flat_map in I. destruct I as ((j, y) & I & J). cbn [fst snd] in J. destruct (Nat.eqb_spec j i) as [->|]; [|easy]. destruct J as [->|[]]. auto. Qed.
    Lemma tk_part : forall i, i < length (fl_parts c x) -> completed (S i) h = true \/ exists y, In (Err y) (passed h).
    Proof.
      intros i L. pose proof (tk_i _ _ _ _ T i) as Z. destruct (nth_error (fl_parts c x) i) as [k|] eqn:E; [|apply nth_error_None in E; lia].
      destruct (shown_end c (lf k) (ENDED k (nth_error_In _ _ E))) as [I|(y & I)].
      - left. rewrite completed_proj, Z. apply existsb_exists. exists Done. split; auto. change (@Done (unit + C)) with (inner (@Done C)). now apply in_map.
      - right. exists y. unfold passed. apply in_flat_map. exists (S i, Err y). split; [|now left]. apply in_proj. rewrite Z. change (@Err (unit + C) y) with (inner (@Err C y)). now apply in_map.
    Qed.
    Lemma all_parts : (forall i, i < length (fl_parts c x) -> completed (S i) h = true) \/ exists y, In (Err y) (passed h).
    Proof.
      assert (H : forall n, n <= length (fl_parts c x) -> (forall i, i < n -> completed (S i) h = true) \/ exists y, In (Err y) (passed h)).
      { induction n as [|n IH]; intro L; [left; lia|]. destruct IH as [G|G]; [lia| |auto]. destruct (tk_part n) as [Q|Q]; [lia| |auto].
        left. intros i LI. destruct (Nat.eq_dec i n) as [->|]; auto. apply G. lia. }
      now apply H.
    Qed.
    Lemma completed_app : forall X i (a b : hist X), completed i (a ++ b) = completed i a || completed i b.
    Proof. intros. unfold completed. apply existsb_app. Qed.
    Lemma merge_end : merge_out h 0 Done = [Done] \/ exists y, In (Err y) (passed h).
    Proof.
      destruct all_parts as [G|G]; auto. left. cbn [merge_out]. replace (forallb _ _) with true; auto. symmetry. apply forallb_forall. intros j I. apply in_seq in I.
      rewrite opened_app, (tk_op _ _ _ _ T) in I. change (opened [(0, Done)]) with 0 in I. rewrite completed_app. destruct j as [|j]; [cbn; now rewrite orb_true_r|]. rewrite G by lia. reflexivity.
    Qed.
    Lemma switch_end : switch_out h 0 Done = [Done] \/ exists y, In (Err y) (passed h).
    Proof.
      destruct all_parts as [G|G]; auto. left. unfold switch_out. cbn [Nat.eqb orb]. rewrite (tk_op _ _ _ _ T). rewrite completed_app. replace (completed 0 [(0, Done)]) with true by reflexivity. rewrite orb_true_r. cbn [andb].
      destruct (length (fl_parts c x)) as [|n] eqn:Q; auto. rewrite completed_app, G by lia. reflexivity.
    Qed.
  End End.
End Script.

Lemma err_over : forall C (D : machine C) d l y, lawful D -> In (Err y) l -> mdisp D (mrun D d l) = true.
Proof.
  intros C D d l y L I. apply in_split in I. destruct I as (a & b & ->). rewrite mrun_app, mrun_cons. rewrite mrun_dead; auto; apply (law_term _ L); reflexivity.
Qed.
