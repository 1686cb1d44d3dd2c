(** delay: one task at a time empties the queue. *)
From Coq Require Import Permutation.
From Verif Require Import Base Machine MachineProofs Concur DelaySpec DelayModel.

(** An item that only occurs at the end of its thread. *)
Section Last.
  Context {St item label : Type} (istep : St -> item -> option (St * list item * list label)) (w : item -> bool).
  Hypothesis H : forall s it s' its ls, istep s it = Some (s', its, ls) ->
    (forall i, In i its -> w i = false) \/ w it = true /\ exists is i, its = is ++ [i] /\ (forall i, In i is -> w i = false).
  Definition wlast (t : list item) : Prop := forall a i b, t = a ++ i :: b -> w i = true -> b = [].
  Lemma wlast_inv : forall c tr c', gexec istep c tr c' -> Forall wlast (snd c) -> Forall wlast (snd c').
  Proof.
    intros c tr c' X. apply (gexec_tinv _ (fun _ ts _ => Forall wlast ts)) with (2 := X).
    intros s ts1 it rest ts2 _ s' its ls F I. apply Forall_app in F as [F1 F2]. inversion F2 as [|y z F3 F4 EQ]; clear EQ; subst.
    apply Forall_app. split; auto. constructor; auto.
    assert (R : wlast rest) by (intros a k b -> Wk; exact (F3 (it :: a) k b eq_refl Wk)).
    destruct (H _ _ _ _ _ I) as [NI|(W & is & k & -> & NI)].
    - clear - NI R. induction its as [|i its IH]; cbn [app]; auto.
      assert (wlast (its ++ rest)) by (apply IH; intros k J; apply (NI k); now right).
      intros [|a0 a] k b Q; cbn in Q; inversion Q; subst; [intro W; rewrite (NI k (or_introl eq_refl)) in W; discriminate|eauto].
    - rewrite (F3 [] it rest eq_refl W), app_nil_r. intros a j b Q Wj. destruct b as [|b0 b]; auto. exfalso.
      destruct (exists_last (l := b0 :: b)) as (b' & b1 & Z); [discriminate|]. rewrite Z in Q.
      change (a ++ j :: b' ++ [b1]) with (a ++ (j :: b') ++ [b1]) in Q. rewrite app_assoc in Q. apply app_inj_tail in Q as [Q _].
      rewrite (NI j) in Wj; [discriminate|]. rewrite Q. apply in_app_iff. right. now left.
  Qed.
End Last.

Section Trace.
  Context {V : Type}.
  Lemma ins_app : forall a b : list (dlab V), ins (a ++ b) = ins a ++ ins b.
  Proof. intros. apply flat_map_app. Qed.
  Lemma shown_app : forall a b : list (dlab V), shown (a ++ b) = shown a ++ shown b.
  Proof. intros. apply flat_map_app. Qed.
  Fixpoint busy (b : bool) (tr : list (dlab V)) : bool :=
    match tr with [] => b | DBeg _ _ :: r => busy true r | DEnd :: r => busy false r | _ :: r => busy b r end.
  Lemma busy_app : forall a b x, busy x (a ++ b) = busy (busy x a) b.
  Proof. induction a as [|[] a IH]; intros; cbn; auto. Qed.
  Lemma serial_app : forall (a b : list (dlab V)) x, serial x (a ++ b) <-> serial x a /\ serial (busy x a) b.
  Proof. induction a as [|[] a IH]; intros; cbn; rewrite ?IH; tauto. Qed.
  Lemma stops_snoc : forall (tr : list (dlab V)) x, stops tr -> (forall e t, x = DBeg e t -> ~ In DKill tr) -> stops (tr ++ [x]).
  Proof.
    intros tr x ST N a b e t E I. destruct b as [|y b _] using rev_ind; [destruct I|].
    change (a ++ DKill :: b ++ [y]) with (a ++ (DKill :: b) ++ [y]) in E. rewrite app_assoc in E. apply app_inj_tail in E as [E E2].
    apply in_app_iff in I as [I|[I|[]]].
    - exact (ST a b e t E I).
    - rewrite I in E2. apply (N e t E2). rewrite E. apply in_app_iff. right. now left.
  Qed.
  Lemma stops_nil : @stops V [].
  Proof. intros [|a0 a] b e t E; discriminate. Qed.
End Trace.

Section Proofs.
  Context {V : Type} (D : machine V) (clear sync : bool) (delay : nat) (src0 : list (ev V)) (d0 : mst D) (workers kills : nat).
  Hypothesis LD : lawful D.
  Notation st := (dst D).
  Notation item := (@ditem V).
  Definition ok : Prop := clear = false \/ no_error src0.

  Definition isT (i : item) : bool := match i with YSched _ | YTask _ | YDrain | YCall _ true | YBack true => true | _ => false end.
  Definition isO (i : item) : bool := match i with YCall _ true => true | _ => false end.
  Definition isN (i : item) : bool := match i with YCall _ false | YBack false | YUnlock => true | _ => false end.
  Definition isE (i : item) : bool := match i with YBack false | YUnlock => true | _ => false end.
  Definition isB (i : item) : bool := match i with YBack _ => true | _ => false end.
  Definition isW (i : item) : bool := match i with YWork => true | _ => false end.
  Definition isK (i : item) : bool := match i with YKill => true | _ => false end.
  Definition isS (i : item) : bool := match i with YSrc => true | _ => false end.

  Definition dues (i : list (ev V * nat)) : list (ev V * nat) := map (fun p => (fst p, snd p + delay)) i.
  Definition match1 (a b : ev V * nat) : Prop := fst a = fst b /\ snd a <= snd b.
  Definition cut (i o : list (ev V * nat)) : Prop :=
    delayed delay i o \/
    clear = true /\ exists seen rest x t o' t', In (Err x) src0 /\ i = seen ++ rest ++ [(Err x, t)] /\ Forall2 (fun a b => fst a = fst b /\ snd a + delay <= snd b) seen o' /\ o = o' ++ [(Err x, t')].

  Record com (s : st) (l : list item) (tr : list (dlab V)) : Prop := Com {
    c_src : y_src s <> [] -> 1 <= count isS l;
    c_sub : forall e, In e (y_src s) -> In e src0;
    c_prefix : exists rest, clip src0 = map fst (ins tr) ++ rest;
    c_times : forall t, In t (y_pending s) \/ In (YTask t) l \/ In (YSched t) l -> exists e, In (e, t) (dues (ins tr));
    c_qt : forall p, In p (y_queue s) -> In p (dues (ins tr));
    c_work : count isW l = workers;
    c_sync : sync = true -> y_pending s = [];
    c_ser : ok -> serial false tr;
    c_lock : ok -> y_lock s = false /\ count isN l = 0;
    c_d : y_d s = mrun D d0 (map fst (shown tr)) \/ kills <> 0 /\ mdisp D (y_d s) = true /\ y_d s = mkill D (mrun D d0 (map fst (shown tr)));
    c_kill : In DKill tr -> mdisp D (y_d s) = true;
    c_stop : stops tr;
    c_nokill : kills = 0 -> count isK l = 0
  }.
  Definition calls (l : list item) (F : list (ev V * nat)) : Prop :=
    count isO l = length F /\ forall e, In (YCall e true) l -> exists t, F = [(e, t)].
  Definition vq (s : st) (l : list item) (tr : list (dlab V)) : Prop :=
    exists Sd F Q, dues (ins tr) = Sd ++ F ++ Q /\ Forall2 match1 Sd (shown tr) /\ calls l F /\ Forall (fun p => snd p <= y_now s) F /\
          (y_queue s = Q /\ y_lock s = false /\ count isN l = 0 \/
           clear = true /\ y_queue s = [] /\ y_fin s = true /\ count isE l = 0 /\
           exists x Q' t, Q = Q' ++ [(Err x, t)] /\ In (Err x) src0 /\ forall e, In (YCall e false) l -> e = Err x).
  Record lv (s : st) (l : list item) (tr : list (dlab V)) : Prop := Lv {
    v_tok : count isT l + length (y_pending s) = if y_active s then 1 else 0;
    v_rest : clip src0 = map fst (ins tr) ++ (if y_fin s then [] else clip (y_src s));
    v_q : vq s l tr;
    v_act : y_queue s <> [] -> y_active s = true;
    v_busy : ok -> busy false tr = (0 <? count isB l)
  }.
  Definition Inv (s : st) (l : list item) (tr : list (dlab V)) : Prop :=
    com s l tr /\ (mdisp D (y_d s) = false /\ lv s l tr \/ mdisp D (y_d s) = true /\ cut (ins tr) (shown tr)).

  Lemma dues_app : forall a b, dues (a ++ b) = dues a ++ dues b.
  Proof. intros. apply map_app. Qed.
  Lemma dues_split : forall i a b, dues i = a ++ b -> exists i1 i2, i = i1 ++ i2 /\ dues i1 = a /\ dues i2 = b.
  Proof. intros i a b E. unfold dues in E. apply map_eq_app in E as (x & y & -> & <- & <-). eauto. Qed.
  Lemma delayed_of : forall i o Sd rest, dues i = Sd ++ rest -> Forall2 match1 Sd o -> delayed delay i o.
  Proof.
    intros i o Sd rest E F. apply dues_split in E as (a & b & -> & <- & _). exists a, b. split; auto.
    clear -F. revert o F. induction a as [|p a IH]; intros o F; inversion F; subst; constructor; auto.
  Qed.

  Lemma com_perm : forall s l l' tr, Permutation l l' -> com s l tr -> com s l' tr.
  Proof.
    intros s l l' tr P [A B C T Q W SY SE LO DD K ST NK].
    split; rewrite <- ?(count_perm _ _ _ P); auto.
    intros t [I|[I|I]]; apply T; auto; right; [left|right]; exact (Permutation_in _ (Permutation_sym P) I).
  Qed.
  Lemma Inv_perm : forall s l l' tr, Permutation l l' -> Inv s l tr -> Inv s l' tr.
  Proof.
    intros s l l' tr P (C & H). split; [eauto using com_perm|].
    destruct H as [(A & [TK RE (Sd & F & Q & Q1 & Q2 & (Q3 & Q4) & Q5 & Q6) AC BU])|H]; [left|right; auto].
    split; auto. split; rewrite <- ?(count_perm _ _ _ P); auto.
    exists Sd, F, Q. repeat split; auto; rewrite <- ?(count_perm _ _ _ P); auto.
    - intros e I. apply Q4. exact (Permutation_in _ (Permutation_sym P) I).
    - destruct Q6 as [Q6|(Z1 & Z2 & Z3 & Z5 & x & Q' & t & Z4 & Z6 & Z7)]; [left; auto|right]. repeat split; auto.
      exists x, Q', t. repeat split; auto. intros e I. apply Z7. exact (Permutation_in _ (Permutation_sym P) I).
  Qed.

  Ltac fields := cbn [y_src y_fin y_lock y_queue y_active y_pending y_now y_d app].
  Ltac cnt := rewrite ?count_app, ?count_cons, ?count_nil in *; cbn [isT isO isN isE isB isW isK isS] in *.

  Lemma com_quiet : forall s it l tr s' its ls, com s (it :: l) tr -> ls = [] \/ ls = [DEnd] ->
    incl (y_src s') (y_src s) -> (y_src s' <> [] -> count isS its = count isS [it]) -> y_d s' = y_d s -> incl (y_queue s') (y_queue s) ->
    count isW its = count isW [it] -> count isK its = count isK [it] ->
    (sync = true -> y_pending s = [] -> y_pending s' = []) -> (ok -> y_lock s = false -> count isN [it] = 0 -> y_lock s' = false /\ count isN its = 0) ->
    (forall t, In t (y_pending s') \/ In (YTask t) its \/ In (YSched t) its -> In t (y_pending s) \/ it = YTask t \/ it = YSched t \/ exists e, In (e, t) (y_queue s)) ->
    com s' (its ++ l) (tr ++ ls).
  Proof.
    intros s it l tr s' its ls [A B CP T Q W SY SE LO DD K ST NK] HL E1 CS E2 IQ CW CK HS HLO HT.
    assert (I0 : ins (tr ++ ls) = ins tr) by (rewrite ins_app; destruct HL as [->| ->]; cbn; apply app_nil_r).
    assert (S0 : shown (tr ++ ls) = shown tr) by (rewrite shown_app; destruct HL as [->| ->]; cbn; apply app_nil_r).
    assert (K0 : In DKill (tr ++ ls) -> In DKill tr) by (rewrite in_app_iff; destruct HL as [->| ->]; cbn; intuition discriminate).
    split; rewrite ?I0, ?S0, ?E2; auto.
    - intro N. assert (N' : y_src s <> []) by (intro Z; rewrite Z in E1; destruct (y_src s') as [|x0 ?]; [auto|apply (E1 x0); now left]).
      specialize (A N'). specialize (CS N). cnt. lia.
    - intros t H.
      assert (H1 : (In t (y_pending s') \/ In (YTask t) its \/ In (YSched t) its) \/ (In (YTask t) l \/ In (YSched t) l)) by (rewrite !in_app_iff in H; tauto).
      destruct H1 as [H1|H1].
      + destruct (HT t H1) as [P|[P|[P|(e & P)]]].
        * apply T. auto.
        * apply T. right. left. now left.
        * apply T. right. right. now left.
        * exists e. auto.
      + apply T. right. destruct H1; [left|right]; now right.
    - cnt. lia.
    - intro H. specialize (SE H). apply serial_app. split; auto. destruct HL as [->| ->]; cbn; auto.
    - intro H. destruct (LO H) as (L1 & L2). cnt. destruct HLO as (H1 & H2); auto; try lia. split; auto. lia.
    - destruct HL as [->| ->]; [now rewrite app_nil_r|]. apply stops_snoc; auto. discriminate.
    - intro H. specialize (NK H). cnt. lia.
  Qed.

  Lemma calls_drop : forall i l F, calls (i :: l) F -> isO i = false -> calls l F.
  Proof. intros i l F (A & B) N. split; [rewrite count_cons, N in A; exact A|]. intros e I. apply B. now right. Qed.
  Lemma calls_add : forall i l F, calls l F -> isO i = false -> calls (i :: l) F.
  Proof. intros i l F (A & B) N. split; [rewrite count_cons, N; exact A|]. intros e [->|I]; [discriminate|]. apply B. auto. Qed.

  Lemma vq_quiet : forall s it l tr s' its ls, vq s (it :: l) tr -> ls = [] \/ ls = [DEnd] ->
    y_queue s' = y_queue s -> y_lock s' = y_lock s -> y_fin s' = y_fin s -> y_now s <= y_now s' ->
    isO it = false -> isN it = false -> (forall i, In i its -> isO i = false /\ isN i = false) -> vq s' (its ++ l) (tr ++ ls).
  Proof.
    intros s it l tr s' its ls (Sd & F & Q & Q1 & Q2 & Q3 & Q5 & Q6) HL EQ EL EF NOW NO NN HI.
    assert (I0 : ins (tr ++ ls) = ins tr) by (rewrite ins_app; destruct HL as [->| ->]; cbn; apply app_nil_r).
    assert (S0 : shown (tr ++ ls) = shown tr) by (rewrite shown_app; destruct HL as [->| ->]; cbn; apply app_nil_r).
    assert (NT : count isN its = 0) by (apply count_zero_of; intros i J; now apply HI).
    exists Sd, F, Q. rewrite I0, S0, EQ, EL, EF. split; auto. split; auto. split; [|split].
    - apply calls_drop in Q3; auto. clear - Q3 HI. induction its as [|i its IH]; cbn [app]; auto.
      apply calls_add; [apply IH; intros; apply HI; now right|]. apply HI. now left.
    - eapply Forall_impl; [|exact Q5]. cbn. intros; lia.
    - destruct Q6 as [(Z1 & Z2 & Z3)|(Z1 & Z2 & Z3 & Z5 & x & Q' & t & Z4 & Z6 & Z7)]; [left|right].
      + rewrite count_cons, NN in Z3. rewrite count_app, NT. auto.
      + assert (NE : count isE its = 0) by (apply count_zero_of; intros i J; apply HI in J as [_ J]; destruct i as [|?|?| | |? []|[]| |?|]; auto; discriminate).
        assert (NE' : isE it = false) by (destruct it as [|?|?| | |? []|[]| |?|]; auto; discriminate).
        rewrite count_cons, NE' in Z5. rewrite count_app, NE. repeat split; auto. exists x, Q', t. repeat split; auto. intros e J. apply in_app_iff in J as [J|J]; [|apply Z7; now right].
        apply HI in J as [_ J]. discriminate.
  Qed.

  Ltac cq := eapply com_quiet; eauto; fields; auto using incl_refl; intros; try discriminate; rewrite ?in_app_iff in *; cbn in *; intuition (try discriminate; congruence).
  Ltac quiet1 := fields; auto; try lia; let i := fresh in let Hi := fresh in intros i Hi; repeat (destruct Hi as [<-|Hi]; [split; reflexivity|]); destruct Hi.

  Lemma Inv_step : forall s it l tr s' its ls, Inv s (it :: l) tr -> ystep D clear sync delay s it = Some (s', its, ls) ->
    Inv s' (its ++ l) (tr ++ ls).
  Proof.
    intros s it l tr s' its ls (C & T0) I. destruct it as [|t|t| | |e own|own| |n|]; cbn [ystep] in I.
    - (* YSrc *)
      destruct (y_src s) as [|e r] eqn:SR.
      { inversion I; subst s' its ls; clear I.
        split; [clear T0; eapply com_quiet; eauto; fields; rewrite ?SR; auto using incl_refl; intros; cbn in *; intuition (try discriminate; congruence)|].
        destruct T0 as [(LV & [TK RE VQ AC BU])|T0]; [left|right; rewrite app_nil_r; auto].
        split; auto. split; [ | | eapply vq_quiet; eauto; quiet1| |]; rewrite ?app_nil_r; fields; cnt; auto. }
      destruct (y_fin s || mdisp D (y_d s)) eqn:FD.
      { inversion I; subst s' its ls; clear I.
        split; [clear T0; eapply com_quiet; eauto; fields; rewrite ?SR; auto using incl_refl, incl_tl; intros; cbn in *; intuition (try discriminate; congruence)|].
        destruct T0 as [(LV & [TK RE VQ AC BU])|T0]; [left|right; rewrite app_nil_r; auto].
        split; auto. rewrite LV, orb_false_r in FD.
        split; [ | | eapply vq_quiet; eauto; quiet1| |]; rewrite ?app_nil_r; fields; cnt; auto. rewrite FD in *. auto. }
      apply orb_false_iff in FD as [FI LV]. destruct (y_lock s) eqn:LK; [discriminate|].
      destruct T0 as [(_ & [TK RE VQ AC BU])|(T0 & _)]; [|congruence]. rewrite FI, SR in RE.
      assert (I0 : ins (tr ++ [DIn e (y_now s)]) = ins tr ++ [(e, y_now s)]) by (rewrite ins_app; reflexivity).
      assert (S0 : shown (tr ++ [DIn e (y_now s)]) = shown tr) by (rewrite shown_app; apply app_nil_r).
      assert (K0 : In DKill (tr ++ [DIn e (y_now s)]) -> In DKill tr) by (rewrite in_app_iff; intros [?|[?|[]]]; auto; discriminate).
      assert (B0 : busy false (tr ++ [DIn e (y_now s)]) = busy false tr) by (rewrite busy_app; reflexivity).
      assert (CL : clip src0 = map fst (ins tr ++ [(e, y_now s)]) ++ (if is_term e then [] else clip r)).
      { rewrite RE, map_app, <- app_assoc. f_equal. cbn. destruct e; reflexivity. }
      assert (IE : In e src0) by (apply (c_sub _ _ _ C); rewrite SR; now left).
      assert (NOR : (match e, clear with Err _, true => false | _, _ => true end) = true \/ exists x, e = Err x /\ clear = true) by (destruct e, clear; eauto).
      destruct NOR as [NOR|(x & -> & CT)].
      + assert (I' : Some (DS (D := D) r (y_fin s || is_term e) false (y_queue s ++ [(e, y_now s + delay)]) true (y_pending s) (y_now s) (y_d s),
                           (if y_active s then [] else [YSched (y_now s + delay)]) ++ [YSrc], [DIn e (y_now s)]) = Some (s', its, ls))
          by (rewrite <- I; destruct e, clear; auto; discriminate).
        clear I. inversion I'; subst s' its ls; clear I'.
        split.
        { destruct C as [A B CP T QT W SY SE LO DD K ST NK].
          split; rewrite ?I0, ?S0, ?dues_app; fields; auto.
          - intros _. cnt. lia.
          - intros a Ha. apply B. rewrite SR. now right.
          - eauto.
          - intros t H. assert (H1 : (In t (y_pending s) \/ In (YTask t) (YSrc :: l) \/ In (YSched t) (YSrc :: l)) \/ t = y_now s + delay).
            { clear - H. destruct (y_active s); cbn in H; cbn; intuition (try discriminate; try match goal with H : YSched _ = YSched _ |- _ => injection H as <- end; auto). }
            destruct H1 as [H1|H1].
            + destruct (T t H1) as (a & Ha). exists a. apply in_app_iff. auto.
            + exists e. apply in_app_iff. right. left. cbn. now rewrite H1.
          - intros q Hq. apply in_app_iff in Hq. apply in_app_iff. destruct Hq as [Hq|[<-|[]]]; [left; auto|right; now left].
          - destruct (y_active s); cnt; lia.
          - intro O. apply serial_app. split; auto. cbn. auto.
          - intro O. destruct (LO O). split; auto. destruct (y_active s); cnt; lia.
          - apply stops_snoc; auto. discriminate.
          - intro H. specialize (NK H). destruct (y_active s); cnt; lia. }
        left. fields. split; auto. split; rewrite ?I0, ?B0; fields; auto.
        * destruct (y_active s); cnt; lia.
        * rewrite FI. cbn [orb]. exact CL.
        * destruct VQ as (Sd & F & Q & Q1 & Q2 & Q3 & Q5 & [(Z1 & Z2 & Z3)|(Z1 & Z2 & Z3 & _)]); [|congruence].
          exists Sd, F, (Q ++ [(e, y_now s + delay)]). rewrite I0, S0, dues_app, Q1, <- !app_assoc. split; auto. split; auto.
          split; [|split; auto].
          -- apply calls_drop in Q3; auto. destruct (y_active s); cbn [app]; auto using calls_add.
          -- left. fields. rewrite Z1. repeat split; auto. destruct (y_active s); cnt; lia.
        * intro O. rewrite (BU O). destruct (y_active s); cnt; reflexivity.
      + rewrite CT in I. inversion I; subst s' its ls; clear I.
        assert (NOK : ~ ok) by (intros [O|O]; [congruence|exact (O x IE)]).
        split.
        { destruct C as [A B CP T QT W SY SE LO DD K ST NK].
          split; rewrite ?I0, ?S0, ?dues_app; fields; auto; try contradiction.
          - intros _. cnt. lia.
          - intros a Ha. apply B. rewrite SR. now right.
          - eauto.
          - intros t H. assert (H1 : (In t (y_pending s) \/ In (YTask t) (YSrc :: l) \/ In (YSched t) (YSrc :: l))) by (cbn in H; cbn; intuition discriminate).
            destruct (T t H1) as (a & Ha). exists a. apply in_app_iff. auto.
          - apply stops_snoc; auto. discriminate. }
        left. fields. split; auto. split; rewrite ?I0, ?B0; fields; auto; try contradiction.
        destruct VQ as (Sd & F & Q & Q1 & Q2 & Q3 & Q5 & [(Z1 & Z2 & Z3)|(Z1 & Z2 & Z3 & _)]); [|congruence].
        exists Sd, F, (Q ++ [(Err x, y_now s + delay)]). rewrite I0, S0, dues_app, Q1, <- !app_assoc. split; auto. split; auto.
        split; [|split; auto].
        * apply calls_drop in Q3; auto. cbn [app]. auto using calls_add.
        * assert (NE : count isE l <= count isN l) by (clear; induction l as [|i l IH]; auto; cnt; destruct i as [|?|?| | |? []|[]| |?|]; cbn; lia).
          right. fields. cnt. repeat split; auto; try lia. exists x, Q, (y_now s + delay). repeat split; auto.
          intros a [H|[H|H]]; try congruence. exfalso. assert (1 <= count isN l) by (eapply count_in; [exact H|reflexivity]). lia.
    - (* YSched *)
      unfold task_to in I. destruct sync eqn:SYN; inversion I; subst s' its ls; clear I.
      + split; [cq|]. 
        destruct T0 as [(LV & [TK RE VQ AC BU])|T0]; [left|right; rewrite app_nil_r; auto].
        split; auto. split; [ | | eapply vq_quiet; eauto; quiet1| |]; rewrite ?app_nil_r; fields; cnt; auto.
      + split; [cq|]. 
        destruct T0 as [(LV & [TK RE VQ AC BU])|T0]; [left|right; rewrite app_nil_r; auto].
        split; auto. split; [ | | eapply vq_quiet; eauto; quiet1| |]; rewrite ?app_nil_r; fields; cnt; rewrite ?app_length; cbn [length]; auto. lia.
    - (* YTask *)
      destruct (mdisp D (y_d s)) eqn:DE.
      { inversion I; subst s' its ls; clear I. destruct T0 as [(LV & _)|(_ & T0)]; [congruence|].
        split; [cq|]. right. rewrite app_nil_r. auto. }
      destruct (t <=? y_now s) eqn:TN; inversion I; subst s' its ls; clear I.
      split; [cq|].
      destruct T0 as [(_ & [TK RE VQ AC BU])|(T0 & _)]; [left|congruence].
      split; auto. split; [ | | eapply vq_quiet; eauto; quiet1| |]; rewrite ?app_nil_r; fields; cnt; auto.
    - (* YWork *)
      destruct (y_pending s) as [|t r] eqn:PE; inversion I; subst s' its ls; clear I.
      split; [eapply com_quiet; eauto; fields; rewrite ?PE; auto using incl_refl; intros; try discriminate; cbn in *; intuition (try discriminate; congruence)|].
      destruct T0 as [(LV & [TK RE VQ AC BU])|T0]; [left|right; rewrite app_nil_r; auto].
      split; auto. split; [ | | eapply vq_quiet; eauto; quiet1| |]; rewrite ?app_nil_r; fields; cnt; auto. rewrite PE in TK. cbn [length] in TK. lia.
    - (* YDrain *)
      destruct (y_lock s) eqn:LK; [discriminate|]. destruct (y_queue s) as [|[e t] q] eqn:QE.
      { inversion I; subst s' its ls; clear I.
        split; [eapply com_quiet; eauto; fields; rewrite ?QE; auto using incl_refl; intros; cbn in *; intuition (try discriminate; congruence)|].
        destruct T0 as [(LV & [TK RE VQ AC BU])|T0]; [left|right; rewrite app_nil_r; auto].
        split; auto. split; [ | | eapply vq_quiet; eauto; quiet1| |]; rewrite ?app_nil_r; fields; cnt; auto.
        destruct (y_active s); lia. }
      destruct (t <=? y_now s) eqn:TN.
      + inversion I; subst s' its ls; clear I.
        split; [eapply com_quiet; eauto; fields; rewrite ?QE; auto using incl_refl, incl_tl; intros; cbn in *; intuition (try discriminate; congruence)|].
        destruct T0 as [(LV & [TK RE VQ AC BU])|T0]; [left|right; rewrite app_nil_r; auto].
        split; auto. rewrite app_nil_r. split; fields; cnt; auto; [|intros _; apply AC; rewrite QE; discriminate].
        destruct VQ as (Sd & F & Q & Q1 & Q2 & (Q3 & Q4) & Q5 & [(Z1 & Z2 & Z3)|(Z1 & Z2 & _)]); [|rewrite QE in Z2; discriminate].
        assert (OT : count isO l <= count isT l) by (clear; induction l as [|i l IH]; auto; cnt; destruct i as [|?|?| | |? []|[]| |?|]; cbn; lia).
        assert (F = []) by (destruct F; auto; cnt; cbn [length] in Q3; destruct (y_active s); lia). subst F.
        exists Sd, [(e, t)], q. cnt. rewrite QE in Z1. subst Q. repeat split; auto.
        * cnt. cbn [length] in *. lia.
        * intros e' [J|J]; [inversion J; subst; eauto|]. exfalso.
          assert (1 <= count isO l) by (eapply count_in; [exact J|reflexivity]). cbn [length] in *. lia.
        * constructor; auto. apply Nat.leb_le in TN. exact TN.
      + unfold task_to in I. destruct sync eqn:SYN; inversion I; subst s' its ls; clear I.
        * split; [clear T0; eapply com_quiet; eauto; fields; rewrite ?QE, ?LK; auto using incl_refl; intros; cbn in *; intuition (try match goal with H : YTask _ = YTask _ |- _ => injection H as <- end; eauto 6; try discriminate; try congruence)|].
          destruct T0 as [(LV & [TK RE VQ AC BU])|T0]; [left|right; rewrite app_nil_r; auto].
          split; auto. split; [ | | eapply vq_quiet; eauto; quiet1| |]; rewrite ?app_nil_r; fields; cnt; auto; try lia; rewrite <- QE; auto.
        * split; [eapply com_quiet; eauto; fields; rewrite ?QE, ?LK; auto using incl_refl; intros; try discriminate; rewrite ?in_app_iff in *; cbn in *; intuition (subst; eauto; try discriminate; try congruence)|].
          destruct T0 as [(LV & [TK RE VQ AC BU])|T0]; [left|right; rewrite app_nil_r; auto].
          split; auto. split; [ | | eapply vq_quiet; eauto; quiet1| |]; rewrite ?app_nil_r; fields; cnt; rewrite ?app_length; cbn [length]; auto; try lia; rewrite <- QE; auto.
    - (* YCall *)
      destruct (mdisp D (y_d s)) eqn:DE.
      { inversion I; subst s' its ls; clear I. destruct T0 as [(LV & _)|(_ & T0)]; [congruence|].
        split; [eapply com_quiet; eauto; fields; auto using incl_refl; intros; destruct own; cbn in *; intuition (try discriminate; try congruence)|].
        right. rewrite app_nil_r. auto. }
      destruct T0 as [(_ & [TK RE VQ AC BU])|(T0 & _)]; [|congruence].
      inversion I; subst s' its ls; clear I.
      assert (NKL : ~ In DKill tr) by (intro H; apply (c_kill _ _ _ C) in H; congruence).
      assert (DM : y_d s = mrun D d0 (map fst (shown tr))).
      { destruct (c_d _ _ _ C) as [?|(_ & Z & _)]; auto. congruence. }
      assert (I0 : ins (tr ++ [DBeg e (y_now s)]) = ins tr) by (rewrite ins_app; apply app_nil_r).
      assert (S0 : shown (tr ++ [DBeg e (y_now s)]) = shown tr ++ [(e, y_now s)]) by (rewrite shown_app; reflexivity).
      destruct VQ as (Sd & F & Q & Q1 & Q2 & (Q3 & Q4) & Q5 & Q6).
      assert (OKN : ok -> own = true /\ count isB l = 0).
      { intro O. destruct (c_lock _ _ _ C O) as (_ & O2). destruct own; cnt; [|lia]. split; auto.
        assert (BT : count isB l <= count isT l + count isN l) by (clear; induction l as [|i l IH]; auto; cnt; destruct i as [|?|?| | |? []|[]| |?|]; cbn; lia).
        destruct (y_active s); lia. }
      split.
      { destruct C as [A B CP T QT W SY SE LO DD K ST NK].
        split; rewrite ?I0, ?S0; fields; auto.
        - intros t H. apply T. cbn in H. cbn. intuition discriminate.
        - intro O. apply serial_app. split; auto. cbn. split; auto. rewrite (BU O). destruct (OKN O) as (-> & Z). cnt. now rewrite Z.
        - intro O. destruct (LO O). split; auto. destruct (OKN O) as (-> & Z). cnt. lia.
        - left. rewrite DM, map_app, mrun_app. reflexivity.
        - intro H. apply in_app_iff in H as [H|[H|[]]]; [contradiction|discriminate].
        - apply stops_snoc; auto. }
      rewrite I0, S0. fields. destruct own.
      + destruct (Q4 e (or_introl eq_refl)) as (t & ->). inversion Q5 as [|? ? Q5' _]; subst. cbn [snd] in Q5'.
        assert (Q2' : Forall2 match1 (Sd ++ [(e, t)]) (shown tr ++ [(e, y_now s)])) by (apply Forall2_app; auto; constructor; auto; split; auto).
        destruct (mdisp D (mstep D (y_d s) e)) eqn:DE2; [right|left]; split; auto.
        * left. eapply delayed_of; [|exact Q2']. rewrite Q1, app_assoc. reflexivity.
        * split; fields; auto; rewrite ?I0; cnt; auto.
          -- exists (Sd ++ [(e, t)]), [], Q. rewrite I0, S0, Q1, <- app_assoc. repeat split; auto.
             ++ intros e' [J|J]; [discriminate|]. exfalso. assert (1 <= count isO l) by (eapply count_in; [exact J|reflexivity]). cnt. cbn [length] in *. lia.
             ++ destruct Q6 as [(Z1 & Z2 & Z3)|(Z1 & Z2 & Z3 & Z5 & x & Q' & t' & Z4 & Z6 & Z7)]; [left|right]; cnt; fields; auto.
                repeat split; auto. exists x, Q', t'. repeat split; auto. intros e' [J|J]; [discriminate|]. apply Z7. now right.
          -- intro O. rewrite busy_app. reflexivity.
      + destruct Q6 as [(_ & _ & Z3)|(Z1 & Z2 & Z3 & Z5 & x & Q' & t' & Z4 & Z6 & Z7)]; [cnt; lia|].
        assert (e = Err x) by (apply Z7; now left). subst e. right. split; [apply (law_term D LD); reflexivity|].
        right. split; auto. subst Q. rewrite app_assoc, app_assoc in Q1. apply dues_split in Q1 as (i1 & i2 & E1 & E2 & E3).
        rewrite <- app_assoc in E2. apply dues_split in E2 as (j1 & j2 & F1 & F2 & F3).
        destruct i2 as [|p [|? ?]]; inversion E3; subst. destruct p as [ep tp]. cbn [fst] in *. subst ep.
        exists j1, j2, x, tp, (shown tr), (y_now s). rewrite E1, <- app_assoc. repeat split; auto.
        clear - Q2. revert Q2. generalize (shown tr). induction j1 as [|p j1 IH]; intros o H; inversion H; subst; constructor; auto.
    - (* YBack *)
      inversion I; subst s' its ls; clear I.
      split; [eapply com_quiet; eauto; fields; auto using incl_refl; intros; destruct own; cbn in *; intuition (try discriminate; try congruence)|].
      assert (I0 : ins (tr ++ [DEnd]) = ins tr) by (rewrite ins_app; apply app_nil_r).
      assert (S0 : shown (tr ++ [DEnd]) = shown tr) by (rewrite shown_app; apply app_nil_r).
      destruct T0 as [(LV & [TK RE VQ AC BU])|T0]; [left|right; rewrite I0, S0; auto]. split; auto.
      destruct own.
      + split; [ | | eapply vq_quiet; eauto; quiet1| |]; rewrite ?I0; fields; cnt; auto.
        intro O. rewrite busy_app. cbn. destruct (c_lock _ _ _ C O) as (_ & O2).
        assert (BT : count isB l <= count isT l + count isN l) by (clear; induction l as [|i l IH]; auto; cnt; destruct i as [|?|?| | |? []|[]| |?|]; cbn; lia).
        cnt. destruct (count isB l); auto. destruct (y_active s); lia.
      + exfalso. destruct VQ as (Sd & F & Q & Q1 & Q2 & Q3 & Q5 & [(Z1 & Z2 & Z3)|(Z1 & Z2 & Z3 & Z5 & _)]); cnt; lia.
    - (* YUnlock *)
      inversion I; subst s' its ls; clear I.
      split; [eapply com_quiet; eauto; fields; auto using incl_refl; intros; cbn in *; intuition (try discriminate; try congruence)|].
      destruct T0 as [(LV & [TK RE VQ AC BU])|T0]; [|right; rewrite app_nil_r; auto].
      exfalso. destruct VQ as (Sd & F & Q & Q1 & Q2 & Q3 & Q5 & [(Z1 & Z2 & Z3)|(Z1 & Z2 & Z3 & Z5 & _)]); cnt; lia.
    - (* YClock *)
      inversion I; subst s' its ls; clear I.
      split; [cq|].
      destruct T0 as [(LV & [TK RE VQ AC BU])|T0]; [left|right; rewrite app_nil_r; auto].
      split; auto. split; [ | | eapply vq_quiet; eauto; quiet1| |]; rewrite ?app_nil_r; fields; cnt; auto.
    - (* YKill *)
      inversion I; subst s' its ls; clear I.
      assert (I0 : ins (tr ++ [DKill]) = ins tr) by (rewrite ins_app; apply app_nil_r).
      assert (S0 : shown (tr ++ [DKill]) = shown tr) by (rewrite shown_app; apply app_nil_r).
      assert (KN : kills <> 0) by (intro K0; pose proof (c_nokill _ _ _ C K0); cnt; lia).
      split.
      { destruct C as [A B CP T QT W SY SE LO DD K ST NK].
        split; rewrite ?I0, ?S0; fields; auto.
        - intros t H. apply T. cbn. tauto.
        - intro O. apply serial_app. split; auto. cbn. auto.
        - right. split; auto. split; [apply (law_kill D LD)|]. destruct DD as [->|(_ & D1 & D2)]; auto. rewrite (law_kill_dead D LD) by auto. exact D2.
        - intros _. apply (law_kill D LD).
        - apply stops_snoc; auto. discriminate.
        - intro H. contradiction. }
      right. rewrite I0, S0. fields. split; [apply (law_kill D LD)|].
      destruct T0 as [(LV & [TK RE VQ AC BU])|(_ & T0)]; auto. left.
      destruct VQ as (Sd & F & Q & Q1 & Q2 & _). eapply delayed_of; eauto.
  Qed.

  Lemma Inv_init : forall clock, mdisp D d0 = false -> Inv (d_init D src0 d0) (concat (d_threads workers clock kills)) [].
  Proof.
    intros clock DD.
    assert (NI : forall i, In i (concat (@d_threads V workers clock kills)) -> i = YSrc \/ i = YWork \/ (exists n, i = YClock n) \/ i = YKill /\ kills <> 0).
    { intros i I. apply in_concat in I as (t & T & I). destruct T as [<-|T]; [destruct I as [<-|[]]; auto|].
      apply in_app_iff in T as [T|T]; [apply repeat_spec in T; subst; destruct I as [<-|[]]; auto|].
      apply in_app_iff in T as [T|T].
      - apply in_map_iff in T as (k & <- & _). destruct I as [<-|[]]. eauto.
      - assert (kills <> 0) by (destruct kills; [destruct T|lia]). apply repeat_spec in T. subst. destruct I as [<-|[]]. auto. }
    assert (CZ : forall f : item -> bool, f YSrc = false -> f YWork = false -> (forall k, f (YClock k) = false) -> f YKill = false ->
      count f (concat (d_threads workers clock kills)) = 0).
    { intros f F1 F2 F3 F4. apply count_zero_of. intros i I. destruct (NI i I) as [->|[->|[(k & ->)|(-> & _)]]]; auto. }
    assert (CW : count isW (concat (@d_threads V workers clock kills)) = workers).
    { unfold d_threads. cbn [concat app]. rewrite count_cons, concat_app, concat_app, !count_app. cbn [isW].
      rewrite (count_zero_of isW (concat (map _ clock))), (count_zero_of isW (concat (repeat [YKill] kills))).
      - assert (H : forall n, count isW (concat (repeat [YWork] n)) = n); [|rewrite H; lia].
        induction n; auto. cbn [repeat concat app]. rewrite count_cons, IHn. reflexivity.
      - intros i I. apply in_concat in I as (t & T & I). apply repeat_spec in T. subst. destruct I as [<-|[]]. reflexivity.
      - intros i I. apply in_concat in I as (t & T & I). apply in_map_iff in T as (k & <- & _). destruct I as [<-|[]]. reflexivity. }
    split.
    - split; cbn [d_init y_src y_fin y_lock y_queue y_active y_pending y_now y_d]; auto.
      + intros _. unfold d_threads. cbn [concat app]. rewrite count_cons. cbn. lia.
      + exists (clip src0). reflexivity.
      + intros t [[]|[I|I]]; destruct (NI _ I) as [E|[E|[(k & E)|(E & _)]]]; discriminate.
      + intros _. exact Logic.I.
      + apply stops_nil.
      + intro K0. apply count_zero_of. intros i I. destruct (NI i I) as [->|[->|[(k & ->)|(-> & N)]]]; auto. contradiction.
    - left. cbn [d_init y_d]. split; auto. split; cbn [d_init y_src y_fin y_lock y_queue y_active y_pending y_now y_d]; auto.
      + rewrite CZ; auto.
      + exists [], [], []. split; auto. split; [constructor|]. split; [split|split].
        * rewrite CZ; auto.
        * intros e I. destruct (NI _ I) as [E|[E|[(k & E)|(E & _)]]]; discriminate.
        * constructor.
        * left. rewrite CZ; auto.
      + intros _. rewrite CZ; auto.
  Qed.

  Lemma delay_main : forall clock tr s ts, mdisp D d0 = false ->
    gexec (ystep D clear sync delay) (d_init D src0 d0, d_threads workers clock kills) tr (s, ts) ->
    Inv s (concat ts) tr.
  Proof.
    intros clock tr s ts DD X. apply (gexec_inv _ Inv Inv_perm Inv_step _ _ _ X). now apply Inv_init.
  Qed.

  Lemma work_last : forall clock tr s ts, gexec (ystep D clear sync delay) (d_init D src0 d0, d_threads workers clock kills) tr (s, ts) ->
    Forall (wlast isW) ts.
  Proof.
    intros clock tr s ts X. apply (wlast_inv (ystep D clear sync delay) isW) with (2 := X).
    - clear. intros s it s' its ls I. destruct it as [|t|t| | |e own|own| |n|]; cbn [ystep] in I.
      + left. destruct (y_src s) as [|e r]; [inversion I; subst; intros i []|].
        destruct (y_fin s || mdisp D (y_d s)); [inversion I; subst; intros i [<-|[]]; reflexivity|]. destruct (y_lock s); [discriminate|].
        assert (G : its = (if y_active s then [] else [YSched (y_now s + delay)]) ++ [YSrc] \/ its = [YCall e false; YSrc])
          by (destruct e, clear; inversion I; subst; auto).
        destruct G as [->| ->]; [destruct (y_active s)|]; cbn; intuition (subst; reflexivity).
      + left. unfold task_to in I. destruct sync; inversion I; subst; cbn; intuition (subst; reflexivity).
      + left. destruct (mdisp D (y_d s)); [inversion I; subst; intros i []|]. destruct (t <=? y_now s); inversion I; subst. intros i [<-|[]]; reflexivity.
      + right. split; auto. destruct (y_pending s) as [|t r]; inversion I; subst. exists [YTask t], YWork. split; auto. intros i [<-|[]]; reflexivity.
      + left. destruct (y_lock s); [discriminate|]. destruct (y_queue s) as [|[e t] q]; [inversion I; subst; intros i []|].
        destruct (t <=? y_now s); [inversion I; subst; intros i [<-|[]]; reflexivity|].
        unfold task_to in I. destruct sync; inversion I; subst; cbn; intuition (subst; reflexivity).
      + left. destruct (mdisp D (y_d s)); inversion I; subst; destruct own; intros i [<-|[]]; reflexivity.
      + left. inversion I; subst; destruct own; intros i [<-|[]]; reflexivity.
      + left. inversion I; subst; intros i [].
      + left. inversion I; subst; intros i [].
      + left. inversion I; subst; intros i [].
    - cbn [snd]. apply Forall_forall. intros t T.
      assert (G : exists i, t = [i]).
      { destruct T as [<-|T]; [eauto|]. apply in_app_iff in T as [T|T]; [apply repeat_spec in T; eauto|].
        apply in_app_iff in T as [T|T]; [apply in_map_iff in T as (k & <- & _); eauto|apply repeat_spec in T; eauto]. }
      destruct G as (i & ->). intros [|a0 [|a1 a]] j b Q W; inversion Q. reflexivity.
  Qed.

  (** Nothing can happen any more and enough time has passed. *)
  Lemma delay_quiet : forall clock tr s ts, mdisp D d0 = false -> ok -> workers <> 0 \/ sync = true ->
    gexec (ystep D clear sync delay) (d_init D src0 d0, d_threads workers clock kills) tr (s, ts) ->
    (forall ls c', ~ gstep (ystep D clear sync delay) (s, ts) ls c') ->
    (forall e t, In (e, t) (ins tr) -> t + delay <= y_now s) ->
    mdisp D (y_d s) = false -> map fst (shown tr) = clip src0.
  Proof.
    intros clock tr s ts DD O WS X ST TI LV.
    destruct (delay_main _ _ _ _ DD X) as (C & [(_ & [TK RE VQ AC BU])|(Z & _)]); [|congruence].
    pose proof (work_last _ _ _ _ X) as WL. rewrite Forall_forall in WL.
    destruct (c_lock _ _ _ C O) as (LK & NN).
    assert (TD : forall t, In t (y_pending s) \/ In (YTask t) (concat ts) \/ In (YSched t) (concat ts) -> t <= y_now s).
    { intros t H. apply (c_times _ _ _ C) in H as (e & H). unfold dues in H. apply in_map_iff in H as ([e' t'] & E & H). inversion E; subst. cbn. eauto. }
    assert (HD : forall i t, In (i :: t) ts -> i = YWork /\ t = [] /\ y_pending s = []).
    { intros i t H. pose proof H as H0. apply in_split in H as (t1 & t2 & H).
      destruct (ystep D clear sync delay s i) as [[[s1 its] ls]|] eqn:E.
      { exfalso. apply (ST ls (s1, t1 ++ (its ++ t) :: t2)). rewrite H. now constructor. }
      assert (IC : In i (concat ts)) by (apply in_concat; exists (i :: t); split; auto; now left).
      destruct i as [|u|u| | |e own|own| |n|]; cbn [ystep] in E; try discriminate.
      - destruct (y_src s) as [|e r]; [discriminate|]. destruct (y_fin s || mdisp D (y_d s)); [discriminate|]. rewrite LK in E. destruct e, clear; discriminate.
      - unfold task_to in E. destruct sync; discriminate.
      - rewrite LV in E. assert (H1 : u <= y_now s) by (apply TD; auto). apply Nat.leb_le in H1. rewrite H1 in E. discriminate.
      - split; auto. destruct (y_pending s); [|discriminate]. split; auto. exact (WL _ H0 [] YWork t eq_refl eq_refl).
      - rewrite LK in E. destruct (y_queue s) as [|[e u] q]; [discriminate|]. destruct (u <=? y_now s); [discriminate|]. unfold task_to in E. destruct sync; discriminate.
      - destruct (mdisp D (y_d s)); discriminate. }
    assert (AL : forall i, In i (concat ts) -> i = YWork).
    { intros i I. apply in_concat in I as (t & T & I). destruct t as [|h t]; [destruct I|]. destruct (HD _ _ T) as (-> & -> & _). destruct I as [<-|[]]; auto. }
    assert (CZ : forall f, f YWork = false -> count f (concat ts) = 0).
    { intros f F. apply count_zero_of. intros i I. now rewrite (AL i I). }
    assert (PE : y_pending s = []).
    { destruct WS as [W|W]; [|now apply (c_sync _ _ _ C)].
      pose proof (c_work _ _ _ C) as CW. destruct (concat ts) as [|i l] eqn:CE; [rewrite count_nil in CW; lia|].
      assert (I : In i (concat ts)) by (rewrite CE; now left). apply in_concat in I as (t & T & I). destruct t as [|h t]; [destruct I|].
      now destruct (HD _ _ T) as (_ & _ & H). }
    rewrite CZ in TK by reflexivity. rewrite PE in TK. cbn [length] in TK.
    assert (QE : y_queue s = []).
    { destruct (y_queue s); auto. rewrite AC in TK by discriminate. discriminate. }
    assert (SE : y_src s = []).
    { destruct (y_src s) eqn:SE; auto. assert (H : y_src s <> []) by congruence. apply (c_src _ _ _ C) in H. rewrite CZ in H by reflexivity. lia. }
    rewrite SE in RE. cbn [clip] in RE.
    destruct VQ as (Sd & F & Q & Q1 & Q2 & (Q3 & Q4) & Q5 & [(Z1 & Z2 & Z3)|(Z1 & Z2 & Z3 & Z4 & x & Q' & t & Z5 & Z6 & _)]).
    - rewrite CZ in Q3 by reflexivity. destruct F; [|discriminate]. rewrite QE in Z1. subst Q. rewrite app_nil_r in Q1. cbn [app] in Q1.
      replace (map fst (shown tr)) with (map fst Sd).
      + rewrite RE, <- Q1. unfold dues. rewrite map_map. cbn. destruct (y_fin s); now rewrite app_nil_r.
      + clear - Q2. induction Q2 as [|a b x y H Q2 IH]; auto. cbn. destruct H as [-> _]. now rewrite IH.
    - exfalso. destruct O as [O|O]; [congruence|]. exact (O x Z6).
  Qed.
End Proofs.
