(** debounce: at most one value waits; the two mutexes serialize the callbacks. *)
From Verif Require Import Base Machine MachineProofs Concur DelaySpec DelayProofs DebSpec DebModel.

Section Hist.
  Context {V : Type} (prompt : bool) (d : nat).
  Notation tl := (list (ev V * nat)).
  Notation deb := (debounced prompt d).
  Definition same_last (I O : tl) : Prop := I = [] /\ O = [] \/ exists I' O' e a t, I = I' ++ [(e, a)] /\ O = O' ++ [(e, t)].
  (** All of [I] is settled; [O] is shown; the next event comes at [now] or later. *)
  Definition settled (now : nat) (I O : tl) : Prop :=
    same_last I O /\ forall n r o, not_before now r -> deb n r o -> deb n (I ++ r) (O ++ o).
  (** All but the last value of [I] are settled. *)
  Definition und (v : V) (a : nat) (I O : tl) : Prop :=
    exists I0, I = I0 ++ [(Next v, a)] /\ forall n r o, deb n ((Next v, a) :: r) o -> deb n (I0 ++ (Next v, a) :: r) (O ++ o).

  Lemma settled_nil : settled 0 [] [].
  Proof. split; [now left|]. auto. Qed.
  Lemma settled_mono : forall a b I O, a <= b -> settled a I O -> settled b I O.
  Proof. intros a b I O L (S1 & S2). split; auto. intros n r o NB. apply S2. destruct r as [|[e x] r]; cbn in *; auto. lia. Qed.
  Lemma settled_deb : forall now I O n, settled now I O -> deb n I O.
  Proof. intros now I O n (_ & H). specialize (H n [] [] Logic.I eq_refl). now rewrite !app_nil_r in H. Qed.
  Lemma und_deb : forall v a I O n, und v a I O -> (prompt = true -> n <= a + d) -> deb (Some n) I O.
  Proof. intros v a I O n (I0 & -> & H) P. rewrite <- (app_nil_r O). apply H. right. split; auto. reflexivity. Qed.
  Lemma accept_settled : forall now I O w, settled now I O -> und w now (I ++ [(Next w, now)]) O.
  Proof. intros now I O w (_ & H). exists I. split; auto. intros n r o G. apply H; auto. cbn. auto. Qed.
  Lemma accept_und : forall now I O v a w, und v a I O -> (prompt = true -> now <= a + d) -> und w now (I ++ [(Next w, now)]) O.
  Proof.
    intros now I O v a w (I0 & -> & H) P. exists (I0 ++ [(Next v, a)]). split; auto. intros n r o G. rewrite <- app_assoc. apply H.
    right. split; [exact P|exact G].
  Qed.
  Lemma extract_und : forall now I O v a t, und v a I O -> a + d <= now -> (prompt = true -> now <= a + d) -> now <= t -> (prompt = true -> t = now) ->
    settled now I (O ++ [(Next v, t)]).
  Proof.
    intros now I O v a t (I0 & -> & H) L P L2 P2. split.
    - right. exists I0, O, (Next v), a, t. auto.
    - intros n r o NB G. rewrite <- !app_assoc. apply H. left. exists t, o. split; auto. split; auto. left. split; [lia|]. split.
      + intro Q. specialize (P Q). specialize (P2 Q). lia.
      + destruct r as [|[e x] r]; cbn in *; auto. lia.
  Qed.
  Lemma done_flush : forall I O v a a' t t' n, und v a I O -> (prompt = true -> a' <= a + d) -> a' <= t -> a' <= t' -> (prompt = true -> t = a') -> (prompt = true -> t' = a') ->
    deb n (I ++ [(Done, a')]) (O ++ [(Next v, t); (Done, t')]).
  Proof.
    intros I O v a a' t t' n (I0 & -> & H) P0 L L' P P'. rewrite <- app_assoc. apply H. left. exists t, [(Done, t')]. split; auto. split.
    - exists t'. auto.
    - right. cbn. auto.
  Qed.
  Lemma done_lost : forall I O v a a' t n, und v a I O -> a + d <= a' -> (prompt = true -> a' <= a + d) -> a' <= t -> (prompt = true -> t = a') ->
    deb n (I ++ [(Done, a')]) (O ++ [(Done, t)]).
  Proof.
    intros I O v a a' t n (I0 & -> & H) L P L2 P2. rewrite <- app_assoc. apply H. right. split; [cbn; auto|]. exists t. auto.
  Qed.
  Lemma err_und : forall I O v a a' t x n, und v a I O -> (prompt = true -> a' <= a + d) -> a' <= t -> (prompt = true -> t = a') ->
    deb n (I ++ [(Err x, a')]) (O ++ [(Err x, t)]).
  Proof.
    intros I O v a a' t x n (I0 & -> & H) P L2 P2. rewrite <- app_assoc. apply H. right. split; [cbn; auto|]. exists t. auto.
  Qed.
  Lemma term_settled : forall now I O e t n, settled now I O -> is_term e = true -> now <= t -> (prompt = true -> t = now) ->
    deb n (I ++ [(e, now)]) (O ++ [(e, t)]).
  Proof.
    intros now I O e t n (_ & H) T L P. apply H; [cbn; auto|]. destruct e; [discriminate| |]; exists t; auto.
  Qed.
End Hist.

Section Proofs.
  Context {V : Type} (D : machine V) (prompt : bool) (period : nat) (src0 : list (ev V)) (d0 : mst D) (kills : nat).
  Hypothesis LD : lawful D.
  Notation st := (bst D).
  Notation step := (bstep D false prompt period).
  Notation und := (und prompt period).
  Notation settled := (settled prompt period).
  Notation deb := (debounced prompt period).
  Notation tl := (list (ev V * nat)).

  Definition emits (w : option (@tpc V)) : option V := match w with Some (PEmit v) => Some v | _ => None end.
  Definition wback (w : option (@tpc V)) : bool := match w with Some PBack => true | _ => false end.
  Definition sback (p : @spc V) : bool := match p with SValBack | SEvtBack => true | _ => false end.
  Definition sobs (p : @spc V) : bool := match p with SExtract | SVal _ | SValBack | SEvt _ | SEvtBack => true | _ => false end.
  Definition smtx (p : @spc V) : bool := match p with SSched _ | SUnlock => true | _ => false end.
  Definition early (p : @spc V) : bool := match p with SNext | SSched _ | SUnlock | STerm _ | SExtract => true | _ => false end.
  Definition owed (p : @spc V) : list (ev V) := match p with STerm e => [e] | SExtract => [Done] | _ => [] end.
  Definition good_pc (p : @spc V) (f : bool) : Prop :=
    match p with SSync _ => False | STerm e | SEvt e => is_term e = true /\ f = true | SExtract | SVal _ | SValBack | SEvtBack => f = true
    | SSched _ | SUnlock => f = false | _ => True end.

  Definition ph (s : st) (I O : tl) : Prop :=
    match b_val s with
    | Some v => exists a, b_time s = Some (a + period) /\ (prompt = true -> b_now s <= a + period) /\ und v a I O
    | None => b_time s = None /\ settled (b_now s) I O
    end.
  Definition ph_lost (s : st) (u : V) (I O : tl) : Prop :=
    match b_val s with
    | Some v => exists a, b_time s = Some (a + period) /\ (prompt = true -> b_now s <= a + period) /\ und v a I O
    | None => exists a, a + period <= b_now s /\ (prompt = true -> b_now s <= a + period) /\ und u a I O
    end.
  Definition later (s : st) (t : nat) : Prop := b_now s <= t /\ (prompt = true -> t = b_now s).
  Definition phase (s : st) (I O : tl) : Prop :=
    match b_s s with
    | SVal v => forall n t t', later s t -> later s t' -> deb n I (O ++ [(Next v, t); (Done, t')])
    | SValBack => forall n t, later s t -> deb n I (O ++ [(Done, t)])
    | SEvt e => forall n t, later s t -> deb n I (O ++ [(e, t)])
    | SEvtBack => False
    | _ => match emits (b_w s) with
           | None => ph s I O
           | Some u => (forall t, later s t -> ph s I (O ++ [(Next u, t)])) /\ ph_lost s u I O
           end
    end.
  Definition token (s : st) : Prop :=
    b_pend s <> [] \/ (exists t, b_w s = Some (PTask t)) \/ b_w s = Some PRun \/ exists t, b_s s = SSched t.
  Record com (s : st) (tr : list (dlab V)) : Prop := Com {
    c_pc : good_pc (b_s s) (b_fin s);
    c_mtx : b_mtx s = smtx (b_s s);
    c_obs : b_obs s = wback (b_w s) || sobs (b_s s);
    c_one : wback (b_w s) && sobs (b_s s) = false;
    c_busy : busy false tr = wback (b_w s) || sback (b_s s);
    c_ser : serial false tr;
    c_d : b_d s = mrun D d0 (map fst (shown tr)) \/ kills <> 0 /\ mdisp D (b_d s) = true /\ b_d s = mkill D (mrun D d0 (map fst (shown tr)));
    c_kill : In DKill tr -> mdisp D (b_d s) = true;
    c_stop : stops tr;
    c_prefix : exists rest, clip src0 = map fst (ins tr) ++ rest;
    c_times : forall t, In t (b_pend s) \/ b_w s = Some (PTask t) \/ b_s s = SSched t \/ b_time s = Some t -> exists e a, In (e, a) (ins tr) /\ t = a + period
  }.
  Record lv (s : st) (tr : list (dlab V)) : Prop := Lv {
    v_rest : clip src0 = map fst (ins tr) ++ owed (b_s s) ++ (if b_fin s then [] else clip (b_src s));
    v_fin : b_s s = SNext -> b_fin s = false;
    v_ph : phase s (ins tr) (shown tr);
    v_tok : early (b_s s) = true -> b_val s <> None -> token s
  }.
  Definition Inv (s : st) (tr : list (dlab V)) : Prop :=
    com s tr /\ (mdisp D (b_d s) = false /\ lv s tr \/ mdisp D (b_d s) = true /\ exists n o, n <= b_now s /\ deb (Some n) (ins tr) (shown tr ++ o)).

  Lemma phase_deb : forall s I O, phase s I O -> exists o, deb (Some (b_now s)) I (O ++ o).
  Proof.
    intros s I O P. assert (LT0 : later s (b_now s)) by (split; auto). unfold phase in P.
    assert (G : match emits (b_w s) with None => ph s I O | Some u => (forall t, later s t -> ph s I (O ++ [(Next u, t)])) /\ ph_lost s u I O end ->
      exists o, deb (Some (b_now s)) I (O ++ o)).
    { assert (H : forall O, ph s I O -> deb (Some (b_now s)) I O).
      { intros O' H. unfold ph in H. destruct (b_val s) as [v|].
        - destruct H as (a & _ & H1 & H2). eapply und_deb; eauto.
        - eapply settled_deb. apply H. }
      destruct (emits (b_w s)) as [u|]; intro G.
      - destruct G as (G & _). exists [(Next u, b_now s)]. auto.
      - exists []. rewrite app_nil_r. auto. }
    destruct (b_s s); try (exact (G P)); try (eexists; now apply P). destruct P.
  Qed.

  Ltac fields := cbn [b_src b_fin b_val b_time b_mtx b_obs b_pend b_now b_s b_w b_d set_s set_w set_val set_obs set_mtx set_d emits wback sback sobs smtx early owed good_pc orb andb negb is_term] in *.

  Lemma later_any : forall s s' t, b_now s' = b_now s -> later s' t -> later s t.
  Proof. intros s s' t E (A & B). unfold later. rewrite E in *. auto. Qed.

  Lemma clip_next : forall (v : V) r, clip (Next v :: r) = Next v :: clip r.
  Proof. reflexivity. Qed.
  Lemma clip_term : forall (e : ev V) r, is_term e = true -> clip (e :: r) = [e].
  Proof. intros [| |] r H; try discriminate; reflexivity. Qed.

  Lemma Inv_kill : forall s tr, Inv s tr -> kills <> 0 -> Inv (set_d D s (mkill D (b_d s))) (tr ++ [DKill]).
  Proof.
    intros s tr (C & H) K. pose proof C as [A1 A2 A3 A4 A5 A6 A7 A8 A9 A10 A11].
    assert (SI : ins (tr ++ [DKill]) = ins tr) by (rewrite ins_app; cbn; apply app_nil_r).
    assert (SS : shown (tr ++ [DKill]) = shown tr) by (rewrite shown_app; cbn; apply app_nil_r).
    split.
    - split; fields; rewrite ?SI, ?SS; auto.
      + rewrite busy_app. cbn. auto.
      + apply serial_app. split; auto. exact Logic.I.
      + right. split; auto. split; [apply (law_kill D LD)|]. destruct A7 as [<-|(_ & A7 & A7')]; auto.
        rewrite <- A7'. now rewrite (law_kill_dead D LD).
      + intros _. apply (law_kill D LD).
      + apply stops_snoc; auto. discriminate.
    - right. fields. split; [apply (law_kill D LD)|]. rewrite SI, SS. destruct H as [(_ & [B1 B2 B3 B4])|(_ & H)]; auto.
      apply phase_deb in B3 as (o & B3). exists (b_now s), o. auto.
  Qed.

  Lemma Inv_tick : forall s tr s' its ls, Inv s tr -> step s TTick = Some (s', its, ls) -> Inv s' (tr ++ ls).
  Proof.
    intros s tr s' its ls (C & H) E. pose proof C as [A1 A2 A3 A4 A5 A6 A7 A8 A9 A10 A11]. cbn [bstep] in E.
    destruct (held D prompt s) eqn:HE; [discriminate|]. inversion E; subst s' its ls; clear E. rewrite app_nil_r.
    split; [split; fields; auto|]. fields. destruct H as [(LV & [B1 B2 B3 B4])|(LV & n & o & H1 & H2)]; [left|right; split; auto; exists n, o; auto].
    split; auto. split; fields; auto.
    unfold held in HE. rewrite LV in HE. fields.
    assert (HP : prompt = true -> emits (b_w s) = None /\ b_s s = SNext /\ forall t v, b_time s = Some t -> b_val s = Some v -> Datatypes.S (b_now s) <= t).
    { intro P. rewrite P in HE. cbn [andb] in HE. apply Bool.orb_false_iff in HE as (HE & H3). apply Bool.orb_false_iff in HE as (H1 & H2). repeat split.
      - destruct (b_w s) as [[]|]; auto. discriminate.
      - destruct (b_s s); auto; discriminate.
      - intros t v T V0. rewrite T, V0 in H1. apply Nat.leb_gt in H1. lia. }
    assert (PH : forall I O, ph s I O -> ph (BS (b_src s) (b_fin s) (b_val s) (b_time s) (b_mtx s) (b_obs s) (b_pend s) (Datatypes.S (b_now s)) (b_s s) (b_w s) (b_d s)) I O).
    { intros I O P. unfold ph in *. fields. destruct (b_val s) as [v|] eqn:VV.
      - destruct P as (a & P1 & P2 & P3). exists a. repeat split; auto. intro Q. destruct (HP Q) as (_ & _ & H3). eauto.
      - destruct P as (P1 & P2). split; auto. eapply settled_mono; [|exact P2]. lia. }
    assert (G : match emits (b_w s) with None => ph s (ins tr) (shown tr) | Some u => (forall t, later s t -> ph s (ins tr) (shown tr ++ [(Next u, t)])) /\ ph_lost s u (ins tr) (shown tr) end ->
       let s' := BS (b_src s) (b_fin s) (b_val s) (b_time s) (b_mtx s) (b_obs s) (b_pend s) (Datatypes.S (b_now s)) (b_s s) (b_w s) (b_d s) in
       match emits (b_w s) with None => ph s' (ins tr) (shown tr) | Some u => (forall t, later s' t -> ph s' (ins tr) (shown tr ++ [(Next u, t)])) /\ ph_lost s' u (ins tr) (shown tr) end).
    { intros G s'. destruct (emits (b_w s)) as [u|] eqn:EM; [|now apply PH]. destruct G as (G1 & G2).
      assert (NP : prompt <> true) by (intro Q; destruct (HP Q); discriminate). split.
      - intros t (L1 & L2). apply PH, G1. unfold later. cbn in L1. split; [lia|]. intro; contradiction.
      - unfold ph_lost in *. unfold s'. fields. destruct (b_val s) as [v|].
        + destruct G2 as (a & P1 & P2 & P3). exists a. repeat split; auto. intro; contradiction.
        + destruct G2 as (a & P1 & P2 & P3). exists a. repeat split; auto. intro; contradiction. }
    assert (LT0 : forall t, b_s s <> SNext -> later (BS (b_src s) (b_fin s) (b_val s) (b_time s) (b_mtx s) (b_obs s) (b_pend s) (Datatypes.S (b_now s)) (b_s s) (b_w s) (b_d s)) t -> later s t).
    { intros t N (L1 & L2). cbn in L1. split; [lia|]. intro Q. destruct (HP Q) as (_ & Z & _). contradiction. }
    unfold phase in *. fields. destruct (b_s s) eqn:ES; auto; try exact (G B3); try (intros; apply B3; apply LT0; auto; discriminate).
  Qed.

  (** A callback begins. *)
  Lemma call_d : forall s tr e, com s tr -> mdisp D (b_d s) = false -> let tr' := tr ++ [DBeg e (b_now s)] in
    mstep D (b_d s) e = mrun D d0 (map fst (shown tr')) /\ (In DKill tr' -> mdisp D (mstep D (b_d s) e) = true) /\ stops tr' /\
    ins tr' = ins tr /\ shown tr' = shown tr ++ [(e, b_now s)].
  Proof.
    intros s tr e [A1 A2 A3 A4 A5 A6 A7 A8 A9 A10 A11] LV tr'. unfold tr'. rewrite shown_app, ins_app. cbn. rewrite app_nil_r.
    assert (NK : ~ In DKill tr) by (intro H; rewrite (A8 H) in LV; discriminate). repeat split; auto.
    - rewrite map_app. cbn. rewrite mrun_app. destruct A7 as [<-|(_ & A7 & _)]; [reflexivity|congruence].
    - intro H. apply in_app_iff in H as [H|[H|[]]]; [contradiction|discriminate].
    - apply stops_snoc; auto.
  Qed.
  Lemma add_in : forall (tr : list (dlab V)) e t, ins (tr ++ [DIn e t]) = ins tr ++ [(e, t)] /\ shown (tr ++ [DIn e t]) = shown tr.
  Proof. intros. rewrite ins_app, shown_app. cbn. now rewrite app_nil_r. Qed.
  Lemma add_end : forall tr : list (dlab V), ins (tr ++ [DEnd]) = ins tr /\ shown (tr ++ [DEnd]) = shown tr.
  Proof. intros. rewrite ins_app, shown_app. cbn. now rewrite !app_nil_r. Qed.

  (** The worker. *)
  Lemma Inv_work : forall s tr s' its ls, Inv s tr -> step s TWork = Some (s', its, ls) -> Inv s' (tr ++ ls).
  Proof.
    intros s tr s' its ls (C & H) E. pose proof C as [A1 A2 A3 A4 A5 A6 A7 A8 A9 A10 A11]. cbn [bstep] in E. unfold work_step in E.
    destruct (b_w s) as [p|] eqn:W.
    2:{ destruct (b_pend s) as [|t r] eqn:Q; [discriminate|]. inversion E; subst s' its ls; clear E. rewrite app_nil_r. split.
        - split; fields; auto. intros t' [I|[I|[I|I]]]; apply A11; auto; [left; now right|]. inversion I; subst. left. now left.
        - fields. destruct H as [(LV & [B1 B2 B3 B4])|H]; [left|right; auto]. split; auto. split; fields; auto.
          + unfold phase in *. fields. rewrite W in B3. exact B3.
          + right. left. fields. eauto. }
    destruct p as [t| |v|]; cbn [task] in E.
    - destruct (mdisp D (b_d s)) eqn:LV.
      + inversion E; subst s' its ls; clear E. rewrite app_nil_r. split.
        * split; fields; rewrite ?LV; auto. intros t' [I|[I|[I|I]]]; apply A11; auto; discriminate.
        * right. fields. destruct H as [(Z & _)|(_ & H)]; [congruence|split; auto].
      + destruct (t <=? b_now s) eqn:T; [|discriminate]. inversion E; subst s' its ls; clear E. rewrite app_nil_r. split.
        * split; fields; rewrite ?LV; auto. intros t' [I|[I|[I|I]]]; apply A11; auto; discriminate.
        * left. fields. destruct H as [(_ & [B1 B2 B3 B4])|(Z & _)]; [|congruence]. split; auto. split; fields; auto.
          -- unfold phase in *. fields. rewrite W in B3. exact B3.
          -- intros. right. right. left. reflexivity.
    - destruct (b_mtx s) eqn:M; [discriminate|].
      assert (NOP : s' = set_w D s None -> its = [TWork] -> ls = [] -> (b_time s = None \/ b_val s = None) -> Inv s' (tr ++ ls)).
      { intros -> -> -> Z. rewrite app_nil_r. split.
        - split; fields; try rewrite LV; auto; try congruence. intros t' [I|[I|[I|I]]]; apply A11; auto; discriminate.
        - fields. destruct H as [(LV & [B1 B2 B3 B4])|H]; [left|right; auto]. split; auto. split; fields; auto.
          + unfold phase in *. fields. rewrite W in B3. exact B3.
          + intros EA VN. destruct Z as [Z|Z]; [|contradiction]. exfalso. unfold phase, ph in B3. rewrite W in B3. fields.
            destruct (b_s s); try discriminate EA; (destruct (b_val s) as [v|]; [destruct B3 as (a & B3 & _); congruence|contradiction]). }
      destruct (b_time s) as [t|] eqn:TM; [|inversion E; subst; apply NOP; auto].
      destruct (b_val s) as [v|] eqn:VL; [|inversion E; subst; apply NOP; auto]. clear NOP.
      destruct (t <=? b_now s) eqn:T; inversion E; subst s' its ls; clear E; rewrite app_nil_r.
      + (* the value is taken *) apply Nat.leb_le in T. split.
        * split; fields; try rewrite LV; auto; try congruence. intros t' [I|[I|[I|I]]]; apply A11; auto; discriminate.
        * fields. destruct H as [(LV & [B1 B2 B3 B4])|H]; [left|right; auto]. split; auto. split; fields; auto; [|intros _ Z; now destruct Z].
          unfold phase in *. fields. rewrite W in B3. fields. unfold ph in B3. rewrite VL, TM in B3.
          assert (G : forall a, Some t = Some (a + period) -> (prompt = true -> b_now s <= a + period) -> und v a (ins tr) (shown tr) ->
             let s1 := BS (b_src s) (b_fin s) None None (b_mtx s) (b_obs s) (b_pend s) (b_now s) (b_s s) (Some (PEmit v)) (b_d s) in
             (forall t, later s1 t -> ph s1 (ins tr) (shown tr ++ [(Next v, t)])) /\ ph_lost s1 v (ins tr) (shown tr)).
          { intros a P1 P2 P3 s1. inversion P1; subst t. split.
            - intros t (L1 & L2). unfold ph, s1. fields. split; auto. eapply extract_und; eauto.
            - unfold ph_lost, s1. fields. exists a. auto. }
          destruct (b_s s) eqn:ES; auto; destruct B3 as (a & P1 & P2 & P3); exact (G a P1 P2 P3).
      + (* later *) split.
        * split; fields; try rewrite LV; auto; try congruence. intros t' [I|[I|[I|I]]]; apply A11; auto. { inversion I; subst t'. auto. } rewrite TM in I. auto.
        * fields. destruct H as [(LV & [B1 B2 B3 B4])|H]; [left|right; auto]. split; auto. split; fields; auto.
          -- unfold phase in *. fields. rewrite W in B3. exact B3.
          -- intros. right. left. fields. eauto.
    - destruct (b_obs s) eqn:O; [discriminate|]. destruct (mdisp D (b_d s)) eqn:LV.
      + inversion E; subst s' its ls; clear E. rewrite app_nil_r. split.
        * split; fields; try rewrite LV; auto; try congruence. intros t' [I|[I|[I|I]]]; apply A11; auto; discriminate.
        * right. fields. destruct H as [(Z & _)|(_ & H)]; [congruence|split; auto].
      + unfold call in E. rewrite LV in E. inversion E; subst s' its ls; clear E.
        symmetry in A3. fields. destruct (sobs (b_s s)) eqn:SO; [discriminate|].
        assert (SB : sback (b_s s) = false) by (destruct (b_s s); auto; discriminate). rewrite SB in A5.
        destruct (call_d s tr (Next v) C LV) as (G1 & G2 & G3 & G4 & G5).
        destruct H as [(_ & [B1 B2 B3 B4])|(Z & _)]; [|congruence].
        assert (PH : ph s (ins tr) (shown tr ++ [(Next v, b_now s)])).
        { unfold phase in B3. rewrite W in B3. fields. destruct (b_s s); try discriminate SO; try (apply B3; split; auto); destruct A1. }
        split.
        * split; fields; rewrite ?G4; auto; try (rewrite ?SO, ?SB; reflexivity).
          -- rewrite busy_app. reflexivity.
          -- apply serial_app. split; auto. cbn. auto.
          -- intros t' [I|[I|[I|I]]]; apply A11; auto; discriminate.
        * fields. rewrite G4, G5. destruct (mdisp D (mstep D (b_d s) (Next v))) eqn:LV'; [right|left]; (split; [auto|]).
          -- exists (b_now s), []. split; auto. rewrite app_nil_r. unfold ph in PH. destruct (b_val s) as [w|].
             ++ destruct PH as (a & _ & P2 & P3). eapply und_deb; eauto.
             ++ eapply settled_deb. apply PH.
          -- split; fields; rewrite ?G4, ?G5; auto.
             ++ unfold phase. fields. destruct (b_s s); try discriminate SO; try exact PH; destruct A1.
             ++ intros EA VN. specialize (B4 EA VN). unfold token in *. fields. rewrite W in B4.
                destruct B4 as [B4|[(t & B4)|[B4|B4]]]; auto; discriminate.
    - inversion E; subst s' its ls; clear E. destruct (add_end tr) as (G1 & G2). fields.
      destruct (sobs (b_s s)) eqn:SO; [discriminate|]. assert (SB : sback (b_s s) = false) by (destruct (b_s s); auto; discriminate).
      split.
      * split; fields; rewrite ?G1, ?G2, ?SO, ?SB; auto.
        -- rewrite busy_app. reflexivity.
        -- apply serial_app. split; auto. cbn. auto.
        -- intro I. apply in_app_iff in I as [I|[I|[]]]; [auto|discriminate].
        -- apply stops_snoc; auto. discriminate.
        -- intros t' [I|[I|[I|I]]]; apply A11; auto; discriminate.
      * fields. rewrite G1, G2. destruct H as [(LV & [B1 B2 B3 B4])|H]; [left|right; auto]. split; auto. split; fields; rewrite ?G1, ?G2; auto.
        -- unfold phase in *. fields. rewrite W in B3. fields. exact B3.
        -- intros EA VN. specialize (B4 EA VN). unfold token in *. fields. rewrite W in B4.
           destruct B4 as [B4|[(t & B4)|[B4|B4]]]; auto; discriminate.
  Qed.

  Lemma prefix_of : forall (l rest : list (ev V)), exists rest', l ++ rest = l ++ rest'.
  Proof. eauto. Qed.

  (** The source's thread. *)
  Lemma Inv_src : forall s tr s' its ls, Inv s tr -> step s TSrc = Some (s', its, ls) -> Inv s' (tr ++ ls).
  Proof.
    intros s tr s' its ls (C & H) E. pose proof C as [A1 A2 A3 A4 A5 A6 A7 A8 A9 A10 A11]. cbn [bstep] in E. unfold src_step in E.
    destruct (b_s s) as [|t|p| |e| |v| |e|] eqn:ES.
    - (* SNext *)
      destruct (b_src s) as [|e r] eqn:SR; [inversion E; subst s' its ls; rewrite app_nil_r; split; auto|].
      fields. destruct (b_fin s || mdisp D (b_d s)) eqn:FD.
      + inversion E; subst s' its ls; clear E. rewrite app_nil_r. split.
        * split; fields; auto.
        * fields. destruct H as [(LV & [B1 B2 B3 B4])|H]; [exfalso|right; auto]. rewrite (B2 ES), LV in FD. discriminate.
      + apply Bool.orb_false_iff in FD as (FN & LV). destruct H as [(_ & [B1 B2 B3 B4])|(Z & _)]; [|congruence].
        assert (T : is_term e = true -> s' = BS r true (b_val s) (b_time s) (b_mtx s) (b_obs s) (b_pend s) (b_now s) (STerm e) (b_w s) (b_d s) -> ls = [] -> Inv s' (tr ++ ls)).
        { intros TE -> ->. rewrite app_nil_r. split.
          - split; fields; auto. intros t' [I|[I|[I|I]]]; apply A11; auto. discriminate.
          - left. split; auto. split; fields; auto; try discriminate.
            + rewrite B1, ES, FN, SR. fields. rewrite clip_term; auto.
            + unfold phase in *. rewrite ES in B3. exact B3.
            + intros _ VN. specialize (B4 ltac:(now rewrite ES) VN). unfold token in *. fields. rewrite ES in B4.
              destruct B4 as [B4|[B4|[B4|(t & B4)]]]; auto. discriminate. }
        destruct e as [w|x|]; [clear T|inversion E; subst; apply T; auto|inversion E; subst; apply T; auto].
        destruct (b_mtx s) eqn:M; [discriminate|]. inversion E; subst its ls; clear E.
        destruct (add_in tr (Next w) (b_now s)) as (G1 & G2).
        set (tp := b_now s + period) in *.
        assert (PH : forall O, ph s (ins tr) O -> exists a, a = b_now s /\ und w a (ins tr ++ [(Next w, b_now s)]) O).
        { intros O P. exists (b_now s). split; auto. unfold ph in P. destruct (b_val s) as [v|].
          - destruct P as (a & P1 & P2 & P3). eapply accept_und; eauto.
          - destruct P as (P1 & P2). now apply accept_settled. }
        assert (PX : match emits (b_w s) with None => und w (b_now s) (ins tr ++ [(Next w, b_now s)]) (shown tr)
           | Some u => (forall t, later s t -> und w (b_now s) (ins tr ++ [(Next w, b_now s)]) (shown tr ++ [(Next u, t)])) /\ und w (b_now s) (ins tr ++ [(Next w, b_now s)]) (shown tr) end).
        { unfold phase in B3. rewrite ES in B3. destruct (emits (b_w s)) as [u|].
          - destruct B3 as (P & Q). split.
            + intros t L. destruct (PH _ (P t L)) as (a & -> & R). exact R.
            + unfold ph_lost in Q. destruct (b_val s) as [v|]; destruct Q as (a & Q1 & Q2 & Q3); eapply accept_und; eauto.
          - destruct (PH _ B3) as (a & -> & R). exact R. }
        assert (IN : exists e a, In (e, a) (ins tr ++ [(Next w, b_now s)]) /\ tp = a + period) by (exists (Next w), (b_now s); split; auto; apply in_app_iff; right; now left).
        assert (OLD : forall t, (exists e a, In (e, a) (ins tr) /\ t = a + period) -> exists e a, In (e, a) (ins tr ++ [(Next w, b_now s)]) /\ t = a + period).
        { intros t (e & a & I1 & I2). exists e, a. split; auto. apply in_app_iff. auto. }
        assert (PRE : exists rest, clip src0 = map fst (ins tr ++ [(Next w, b_now s)]) ++ rest).
        { exists (clip r). rewrite B1, ES, FN, SR. fields. rewrite clip_next, map_app, <- app_assoc. reflexivity. }
        assert (REST : clip src0 = map fst (ins tr ++ [(Next w, b_now s)]) ++ [] ++ clip r).
        { rewrite B1, ES, FN, SR. fields. rewrite clip_next, map_app, <- app_assoc. reflexivity. }
        assert (PHX : forall s1, b_val s1 = Some w -> b_time s1 = Some tp -> b_now s1 = b_now s -> forall O, und w (b_now s) (ins tr ++ [(Next w, b_now s)]) O -> ph s1 (ins tr ++ [(Next w, b_now s)]) O).
        { intros s1 F1 F2 F3 O R. unfold ph. rewrite F1, F2, F3. exists (b_now s). split; auto. split; auto. intros _. lia. }
        assert (PHL : forall s1 u, b_val s1 = Some w -> b_time s1 = Some tp -> b_now s1 = b_now s -> forall O, und w (b_now s) (ins tr ++ [(Next w, b_now s)]) O -> ph_lost s1 u (ins tr ++ [(Next w, b_now s)]) O).
        { intros s1 u F1 F2 F3 O R. unfold ph_lost. rewrite F1, F2, F3. exists (b_now s). split; auto. split; auto. intros _. lia. }
        assert (SER : serial false (tr ++ [DIn (Next w) (b_now s)])) by (apply serial_app; split; auto; cbn; auto).
        assert (KK : In DKill (tr ++ [DIn (Next w) (b_now s)]) -> mdisp D (b_d s) = true).
        { intro I. apply in_app_iff in I as [I|[I|[]]]; [auto|discriminate]. }
        assert (STP : stops (tr ++ [DIn (Next w) (b_now s)])) by (apply stops_snoc; auto; discriminate).
        destruct (b_time s) as [t0|] eqn:TM; subst s'.
        * split.
          -- split; fields; rewrite ?G1, ?G2, ?busy_app; auto.
             intros t' [I|[I|[I|I]]]; try discriminate; try (inversion I; subst t'; auto; fail); apply OLD, A11; auto.
          -- left. split; auto. split; fields; rewrite ?G1, ?G2, ?FN; auto.
             ++ unfold phase. fields. destruct (emits (b_w s)) as [u|]; [destruct PX as (P & Q); split|]; auto.
             ++ intros _ _. assert (VN : b_val s <> None).
                { intro Z. unfold phase, ph, ph_lost in B3. rewrite ES, Z in B3.
                  destruct (emits (b_w s)); [destruct B3 as (B3 & _); destruct (B3 (b_now s)) as (B & _); [split; auto|]|destruct B3 as (B & _)]; congruence. }
                specialize (B4 ltac:(now rewrite ES) VN). unfold token in *. fields. rewrite ES in B4. exact B4.
        * split.
          -- split; fields; rewrite ?G1, ?G2, ?busy_app; auto.
             intros t' [I|[I|[I|I]]]; try discriminate; try (inversion I; subst t'; auto; fail); apply OLD, A11; auto.
          -- left. split; auto. split; fields; rewrite ?G1, ?G2, ?FN; auto; try discriminate.
             ++ unfold phase. fields. destruct (emits (b_w s)) as [u|]; [destruct PX as (P & Q); split|]; auto.
             ++ intros _ _. right. right. right. fields. eauto.
    - (* SSched *) inversion E; subst s' its ls; clear E. rewrite app_nil_r. fields. split.
      + split; fields; auto. intros t' [I|[I|[I|I]]]; [apply in_app_iff in I as [I|[<-|[]]]| | |]; try discriminate; apply A11; auto.
      + fields. destruct H as [(LV & [B1 B2 B3 B4])|H]; [left|right; auto]. split; auto. split; fields; auto; try discriminate.
        * now rewrite ES in B1.
        * unfold phase in *. rewrite ES in B3. exact B3.
        * intros _ _. left. fields. destruct (b_pend s); discriminate.
    - destruct A1.
    - (* SUnlock *) inversion E; subst s' its ls; clear E. rewrite app_nil_r. fields. split.
      + split; fields; auto. intros t' [I|[I|[I|I]]]; try discriminate; apply A11; auto.
      + fields. destruct H as [(LV & [B1 B2 B3 B4])|H]; [left|right; auto]. split; auto. split; fields; auto.
        * now rewrite ES in B1.
        * unfold phase in *. rewrite ES in B3. exact B3.
        * intros _ VN. specialize (B4 ltac:(now rewrite ES) VN). unfold token in *. fields. rewrite ES in B4.
          destruct B4 as [B4|[B4|[B4|(t & B4)]]]; auto. discriminate.
    - (* STerm *) fields. destruct A1 as (TE & FN). destruct (b_obs s) eqn:OB; [discriminate|]. destruct (wback (b_w s)) eqn:WB; [discriminate|].
      destruct (mdisp D (b_d s)) eqn:LV.
      + inversion E; subst s' its ls; clear E. rewrite app_nil_r. split.
        * split; fields; rewrite ?LV, ?WB; auto. intros t' [I|[I|[I|I]]]; try discriminate; apply A11; auto.
        * right. fields. destruct H as [(Z & _)|(_ & H)]; [congruence|split; auto].
      + destruct H as [(_ & [B1 B2 B3 B4])|(Z & _)]; [|congruence]. unfold phase in B3. rewrite ES in B3. rewrite ES, FN in B1. fields. rewrite app_nil_r in B1.
        destruct e as [w|x|]; [discriminate| |].
        * inversion E; subst s' its ls; clear E. destruct (add_in tr (Err x) (b_now s)) as (G1 & G2). split.
          -- split; fields; rewrite ?G1, ?G2, ?busy_app, ?WB, ?LV; auto.
             ++ apply serial_app. split; auto. exact Logic.I.
             ++ intro I. apply in_app_iff in I as [I|[I|[]]]; [auto|discriminate].
             ++ apply stops_snoc; auto. discriminate.
             ++ exists []. rewrite B1, map_app, !app_nil_r. reflexivity.
             ++ intros t' I. destruct (A11 t') as (e & a & I1 & I2); [|exists e, a; split; auto; apply in_app_iff; auto].
                destruct I as [I|[I|[I|I]]]; auto; discriminate.
          -- left. fields. split; auto. split; fields; rewrite ?G1, ?G2, ?FN; auto; try discriminate.
             ++ rewrite B1, map_app, app_nil_r. reflexivity.
             ++ unfold phase. fields. intros n t (L1 & L2). fields.
                assert (P : ph s (ins tr) (shown tr) -> deb n (ins tr ++ [(Err x, b_now s)]) (shown tr ++ [(Err x, t)])).
                { intro P. unfold ph in P. destruct (b_val s) as [v|].
                  - destruct P as (a & P1 & P2 & P3). eapply err_und; eauto.
                  - destruct P as (P1 & P2). eapply term_settled; eauto. }
                destruct (emits (b_w s)) as [u|]; auto. destruct B3 as (_ & Q).
                unfold ph_lost in Q. destruct (b_val s) as [v|]; destruct Q as (a & Q1 & Q2 & Q3); eapply err_und; eauto.
        * inversion E; subst s' its ls; clear E. rewrite app_nil_r. split.
          -- split; fields; rewrite ?WB, ?LV; auto. intros t' [I|[I|[I|I]]]; try discriminate; apply A11; auto.
          -- left. fields. split; auto. split; fields; rewrite ?FN; auto; try discriminate.
             intros _ VN. specialize (B4 ltac:(now rewrite ES) VN). unfold token in *. fields. rewrite ES in B4.
             destruct B4 as [B4|[B4|[B4|(t & B4)]]]; auto. discriminate.
    - (* SExtract *) fields. destruct (b_mtx s) eqn:M; [discriminate|]. rewrite Bool.orb_true_r in A3. rewrite Bool.andb_true_r in A4. rewrite A4 in A5. fields.
      destruct (mdisp D (b_d s)) eqn:LV.
      + inversion E; subst s' its ls; clear E. rewrite app_nil_r. split.
        * split; fields; rewrite ?LV, ?A4; auto. intros t' [I|[I|[I|I]]]; try discriminate; apply A11; auto.
        * right. fields. destruct H as [(Z & _)|(_ & H)]; [congruence|split; auto].
      + destruct H as [(_ & [B1 B2 B3 B4])|(Z & _)]; [|congruence]. unfold phase in B3. rewrite ES in B3. rewrite ES, A1 in B1. fields.
        inversion E; subst s' its ls; clear E. destruct (add_in tr Done (b_now s)) as (G1 & G2).
        set (sp := match b_val s with Some v => SVal v | None => SEvt Done end).
        assert (SP : sobs sp = true /\ smtx sp = false /\ sback sp = false /\ early sp = false /\ owed sp = [] /\ good_pc sp true /\ sp <> SNext /\ forall t, sp <> SSched t).
        { unfold sp. destruct (b_val s); repeat split; auto; discriminate. }
        destruct SP as (P1 & P2 & P3 & P4 & P5 & P6 & P7 & P8). split.
        * split; fields; rewrite ?G1, ?G2, ?busy_app, ?P1, ?P2, ?P3, ?A1, ?A4, ?LV; auto.
          -- apply serial_app. split; auto. exact Logic.I.
          -- intro I. apply in_app_iff in I as [I|[I|[]]]; [auto|discriminate].
          -- apply stops_snoc; auto. discriminate.
          -- exists []. rewrite B1, map_app, !app_nil_r. reflexivity.
          -- intros t' I. destruct (A11 t') as (e & a & I1 & I2); [|exists e, a; split; auto; apply in_app_iff; auto].
             destruct I as [I|[I|[I|I]]]; auto. now destruct (P8 t').
        * left. fields. split; auto. split; fields; rewrite ?G1, ?G2, ?A1, ?P5; auto; try congruence.
          -- rewrite B1, map_app, !app_nil_r. reflexivity.
          -- unfold phase. fields. unfold sp. destruct (b_val s) as [v|] eqn:VL.
             ++ assert (P : exists a, (prompt = true -> b_now s <= a + period) /\ und v a (ins tr) (shown tr)).
                { unfold ph, ph_lost in B3. rewrite VL in B3. destruct (emits (b_w s)); [destruct B3 as (_ & a & _ & B5 & B3)|destruct B3 as (a & _ & B5 & B3)]; eauto. }
                destruct P as (a & P0 & P). intros n t t' (L1 & L2) (L3 & L4). fields. eapply done_flush; eauto.
             ++ intros n t (L1 & L2). fields. unfold ph, ph_lost in B3. rewrite VL in B3. destruct (emits (b_w s)) as [u|].
                ** destruct B3 as (_ & a & Q1 & Q2 & Q3). eapply done_lost; eauto.
                ** destruct B3 as (_ & B3). eapply term_settled; eauto.
    - (* SVal *) fields. rewrite Bool.orb_true_r in A3. rewrite Bool.andb_true_r in A4. rewrite A4 in A5. fields.
      destruct (mdisp D (b_d s)) eqn:LV.
      + inversion E; subst s' its ls; clear E. rewrite app_nil_r. split.
        * split; fields; rewrite ?LV, ?A4; auto. intros t' [I|[I|[I|I]]]; try discriminate; apply A11; auto.
        * right. fields. destruct H as [(Z & _)|(_ & H)]; [congruence|split; auto].
      + unfold call in E. rewrite LV in E. inversion E; subst s' its ls; clear E.
        destruct (call_d s tr (Next v) C LV) as (G1 & G2 & G3 & G4 & G5).
        destruct H as [(_ & [B1 B2 B3 B4])|(Z & _)]; [|congruence]. unfold phase in B3. rewrite ES in B3. rewrite ES, A1 in B1. fields.
        assert (L0 : later s (b_now s)) by (split; auto). split.
        * split; fields; rewrite ?G4, ?A4; auto.
          -- rewrite busy_app. reflexivity.
          -- apply serial_app. split; auto. cbn. auto.
          -- intros t' [I|[I|[I|I]]]; try discriminate; apply A11; auto.
        * fields. rewrite G4, G5. destruct (mdisp D (mstep D (b_d s) (Next v))) eqn:LV'; [right|left]; (split; [auto|]).
          -- exists (b_now s), [(Done, b_now s)]. split; auto. rewrite <- app_assoc. apply B3; auto.
          -- split; fields; rewrite ?G4, ?G5, ?A1; auto; try discriminate.
             unfold phase. fields. intros n t L. rewrite <- app_assoc. apply B3; auto.
    - (* SValBack *) fields. rewrite Bool.orb_true_r in A3, A5. rewrite Bool.andb_true_r in A4. inversion E; subst s' its ls; clear E.
      destruct (add_end tr) as (G1 & G2). split.
      + split; fields; rewrite ?G1, ?G2, ?busy_app, ?A4; auto.
        * apply serial_app. split; auto. cbn. auto.
        * intro I. apply in_app_iff in I as [I|[I|[]]]; [auto|discriminate].
        * apply stops_snoc; auto. discriminate.
        * intros t' [I|[I|[I|I]]]; try discriminate; apply A11; auto.
      + fields. rewrite G1, G2. destruct H as [(LV & [B1 B2 B3 B4])|H]; [left|right; auto]. split; auto. split; fields; rewrite ?G1, ?G2; auto; try discriminate.
        * now rewrite ES in B1.
        * unfold phase in *. rewrite ES in B3. exact B3.
    - (* SEvt *) fields. destruct A1 as (TE & FN). rewrite Bool.orb_true_r in A3. rewrite Bool.andb_true_r in A4. rewrite A4 in A5. fields.
      destruct (mdisp D (b_d s)) eqn:LV.
      + inversion E; subst s' its ls; clear E. rewrite app_nil_r. split.
        * split; fields; rewrite ?LV, ?A4; auto. intros t' [I|[I|[I|I]]]; try discriminate; apply A11; auto.
        * right. fields. destruct H as [(Z & _)|(_ & H)]; [congruence|split; auto].
      + unfold call in E. rewrite LV in E. inversion E; subst s' its ls; clear E.
        destruct (call_d s tr e C LV) as (G1 & G2 & G3 & G4 & G5).
        destruct H as [(_ & [B1 B2 B3 B4])|(Z & _)]; [|congruence]. unfold phase in B3. rewrite ES in B3. rewrite ES, FN in B1. fields.
        assert (L0 : later s (b_now s)) by (split; auto). split.
        * split; fields; rewrite ?G4, ?A4; auto.
          -- rewrite busy_app. reflexivity.
          -- apply serial_app. split; auto. cbn. auto.
          -- intros t' [I|[I|[I|I]]]; try discriminate; apply A11; auto.
        * fields. rewrite G4, G5. right. split; [now apply (law_term D LD)|].
          exists (b_now s), []. split; auto. rewrite app_nil_r. apply B3; auto.
    - (* SEvtBack *) fields. rewrite Bool.orb_true_r in A3, A5. rewrite Bool.andb_true_r in A4. inversion E; subst s' its ls; clear E.
      destruct (add_end tr) as (G1 & G2). split.
      + split; fields; rewrite ?G1, ?G2, ?busy_app, ?A4; auto.
        * apply serial_app. split; auto. cbn. auto.
        * intro I. apply in_app_iff in I as [I|[I|[]]]; [auto|discriminate].
        * apply stops_snoc; auto. discriminate.
        * intros t' [I|[I|[I|I]]]; try discriminate; apply A11; auto.
      + fields. rewrite G1, G2. destruct H as [(LV & [B1 B2 B3 B4])|H]; [|right; auto]. unfold phase in B3. rewrite ES in B3. destruct B3.
  Qed.

  Lemma Inv_init : mdisp D d0 = false -> Inv (b_init D src0 d0) [].
  Proof.
    intro DD. split.
    - split; cbn; auto.
      + apply stops_nil.
      + exists (clip src0). reflexivity.
      + intros t [I|[I|[I|I]]]; [destruct I|discriminate..].
    - left. split; auto. split; auto.
      + unfold phase, ph. cbn. split; auto. apply settled_nil.
      + intros _ Z. now destruct Z.
  Qed.
  Lemma its_of : forall sync s i s' its ls, bstep D sync prompt period s i = Some (s', its, ls) -> its = [] \/ its = [TSrc] /\ i = TSrc \/ its = [TWork] /\ i = TWork.
  Proof.
    intros sync s i s' its ls E. destruct i; cbn [bstep] in E.
    - assert (G : its = [] \/ its = [TSrc]); [|tauto]. unfold src_step in E.
      destruct (b_s s); repeat (match type of E with context [match ?x with _ => _ end] => destruct x end; try discriminate); inversion E; auto.
    - right. right. unfold work_step in E. repeat (match type of E with context [match ?x with _ => _ end] => destruct x end; try discriminate); inversion E; auto.
    - destruct (held D prompt s); [discriminate|]. inversion E; auto.
    - inversion E; auto.
  Qed.
  Lemma deb_main : forall ticks tr s ts, mdisp D d0 = false -> gexec step (b_init D src0 d0, b_threads ticks kills) tr (s, ts) -> Inv s tr.
  Proof.
    intros ticks tr s ts DD X.
    apply (gexec_inv step (fun s l tr => Inv s tr /\ (In TKill l -> kills <> 0))) in X.
    - apply X.
    - intros s1 l l' tr1 P (H1 & H2). split; auto. intro I. apply H2. eapply Permutation.Permutation_in; [apply Permutation.Permutation_sym|]; eauto.
    - intros s1 it l tr1 s2 its ls (H1 & H2) E. split.
      + destruct it; [eapply Inv_src|eapply Inv_work|eapply Inv_tick|]; eauto. cbn [bstep] in E. inversion E; subst. apply Inv_kill; auto. apply H2. now left.
      + intro I. apply H2. right. apply in_app_iff in I as [I|I]; auto. apply its_of in E as [->|[(-> & _)|(-> & _)]]; [destruct I|destruct I as [I|[]]; discriminate..].
    - cbn [fst snd]. split; [now apply Inv_init|]. intro I. unfold b_threads in I. cbn [concat app] in I. destruct I as [I|[I|I]]; try discriminate.
      rewrite concat_app in I. apply in_app_iff in I as [I|I]; apply in_concat in I as (t & T & I).
      + apply repeat_spec in T. subst. destruct I as [I|[]]. discriminate.
      + destruct kills; [destruct T|discriminate].
  Qed.

  Definition has (s : st) (ts : list (list bitem)) : Prop := In [TWork] ts /\ (In [TSrc] ts \/ b_src s = [] /\ b_s s = SNext).
  Lemma other_src : forall s i s' its ls, step s i = Some (s', its, ls) -> b_src s = [] /\ b_s s = SNext -> b_src s' = [] /\ b_s s' = SNext.
  Proof.
    intros s i s' its ls E (E1 & E2). destruct i; cbn [bstep] in E.
    - unfold src_step in E. rewrite E1, E2 in E. inversion E; subst. auto.
    - unfold work_step in E. destruct (b_w s) as [[t| |v|]|]; cbn [task] in E; unfold call in E;
        [destruct (mdisp D (b_d s)); [|destruct (t <=? b_now s)]
        |destruct (b_mtx s); [|destruct (b_time s) as [t|]; [destruct (b_val s); [destruct (t <=? b_now s)|]|]]
        |destruct (b_obs s); [|destruct (mdisp D (b_d s))]| |destruct (b_pend s)]; inversion E; subst; auto.
    - destruct (held D prompt s); [discriminate|]. inversion E; auto.
    - inversion E; auto.
  Qed.
  Lemma has_inv : forall ticks tr s ts, gexec step (b_init D src0 d0, b_threads ticks kills) tr (s, ts) -> has s ts.
  Proof.
    intros ticks tr s ts X.
    apply (gexec_tinv step (fun s ts _ => has s ts)) in X; [exact X| |].
    - intros s1 ts1 it rest ts2 tr1 s2 its ls (H1 & H2) E. pose proof (its_of _ _ _ _ _ _ E) as TI. split.
      + apply in_app_iff. apply in_app_iff in H1 as [H1|[H1|H1]]; auto; [|right; now right].
        inversion H1; subst. cbn [bstep] in E. destruct TI as [->|[(_ & Z)|(-> & _)]]; [|discriminate|right; now left].
        exfalso. unfold work_step in E. repeat (match type of E with context [match ?x with _ => _ end] => destruct x end; try discriminate).
      + destruct H2 as [H2|H2]; [|right; eapply other_src; eauto].
        apply in_app_iff in H2 as [H2|[H2|H2]]; [left; apply in_app_iff; auto| |left; apply in_app_iff; right; now right].
        inversion H2; subst. cbn [bstep] in E. destruct TI as [->|[(-> & _)|(_ & Z)]]; [|left; apply in_app_iff; right; now left|discriminate].
        right. unfold src_step in E. destruct (b_s s1) eqn:ES; repeat (match type of E with context [match ?x with _ => _ end] => destruct x eqn:? end; try discriminate); inversion E; subst; auto.
    - cbn. split; [right; now left|left; now left].
  Qed.

  Lemma deb_quiet : forall ticks tr s ts, mdisp D d0 = false ->
    gexec step (b_init D src0 d0, b_threads ticks kills) tr (s, ts) ->
    (forall ls c', ~ gstep step (s, ts) ls c') ->
    (forall e t, In (e, t) (ins tr) -> t + period <= b_now s) ->
    mdisp D (b_d s) = false -> map fst (ins tr) = clip src0 /\ deb None (ins tr) (shown tr).
  Proof.
    intros ticks tr s ts DD X ST TI LV. destruct (has_inv _ _ _ _ X) as (HW & HS).
    destruct (deb_main _ _ _ _ DD X) as (C & [(_ & [B1 B2 B3 B4])|(Z & _)]); [|congruence].
    pose proof C as [A1 A2 A3 A4 A5 A6 A7 A8 A9 A10 A11].
    assert (NS : forall i, In [i] ts -> step s i = None).
    { intros i I. destruct (step s i) as [[[s1 its] ls]|] eqn:E; auto. exfalso. apply in_split in I as (t1 & t2 & ->).
      eapply ST. econstructor. exact E. }
    assert (W : step s TWork = None) by auto. cbn [bstep] in W. unfold work_step in W.
    assert (S0 : b_src s = [] /\ b_s s = SNext \/ step s TSrc = None) by (destruct HS; auto).
    assert (DUE : forall t, In t (b_pend s) \/ b_w s = Some (PTask t) \/ b_s s = SSched t \/ b_time s = Some t -> (t <=? b_now s) = true).
    { intros t I. apply Nat.leb_le. destruct (A11 t I) as (e & a & I1 & ->). eauto. }
    assert (NT : forall e, b_s s = STerm e -> step s TSrc <> None).
    { intros e ES Z. cbn [bstep] in Z. unfold src_step in Z. rewrite ES in *. fields. destruct (b_obs s); [|rewrite LV in Z; destruct e; discriminate].
      destruct (b_w s) as [[]|]; try discriminate. }
    assert (ES : b_src s = [] /\ b_s s = SNext).
    { destruct S0 as [S0|S0]; auto. exfalso. destruct (b_s s) as [|t|p| |e| |v| |e|] eqn:ES; try (eapply NT; eauto; fail);
        cbn [bstep] in S0; unfold src_step in S0; rewrite ES in S0; fields; try discriminate.
      - destruct (b_src s) as [|e r]; [discriminate|]. rewrite (B2 eq_refl), LV, A2 in S0. destruct e; discriminate.
      - destruct A1.
      - rewrite A2, LV in S0. discriminate.
      - rewrite LV in S0. destruct (call D s (Next v)); discriminate.
      - rewrite LV in S0. destruct (call D s e); discriminate. }
    destruct ES as (SR & ES). rewrite ES in *. fields.
    assert (WI : b_w s = None /\ b_pend s = []).
    { destruct (b_w s) as [p|] eqn:EW; [exfalso|destruct (b_pend s); [auto|discriminate]].
      destruct p as [t| |v|]; cbn [task] in W.
      - rewrite LV, (DUE t) in W; auto. discriminate.
      - rewrite A2 in W. destruct (b_time s) as [t|]; [destruct (b_val s); [destruct (t <=? b_now s)|]|]; discriminate.
      - fields. rewrite A3, LV in W. destruct (call D s (Next v)); discriminate.
      - discriminate. }
    destruct WI as (WI & PE). rewrite (B2 eq_refl), SR in B1. cbn [clip owed app] in B1. rewrite app_nil_r in B1.
    assert (VN : b_val s = None).
    { destruct (b_val s) eqn:VL; auto. exfalso. destruct B4 as [T|[(t & T)|[T|(t & T)]]]; auto; try congruence. }
    unfold phase in B3. rewrite ES, WI in B3. cbn [emits] in B3. unfold ph in B3. rewrite VN in B3. destruct B3 as (_ & B3).
    split; auto. eapply settled_deb; eauto.
  Qed.
End Proofs.

Lemma outcome_ok : forall V d (i o : list (ev V * nat)), debounced true d None i o -> untied d i -> o = outcome d i.
Proof.
  induction i as [|[e a] r IH]; intros o H U; [exact H|]. destruct U as (U1 & U2).
  destruct e as [v|x|]; [|now destruct H as (t & -> & _ & _ & H); rewrite (H eq_refl)|now destruct H as (t & -> & _ & _ & H); rewrite (H eq_refl)].
  destruct r as [|[e' a'] r].
  - destruct H as [(t & o' & -> & H1 & [(_ & H2 & _)|[]])|([] & _)]. rewrite (H2 eq_refl), H1. reflexivity.
  - change (outcome d ((Next v, a) :: (e', a') :: r)) with (if a + d <? a' then (Next v, a + d) :: outcome d ((e', a') :: r)
       else match e' with Done => (Next v, a') :: outcome d ((e', a') :: r) | _ => outcome d ((e', a') :: r) end).
    destruct H as [(t & o' & -> & H1 & [(_ & H2 & H3)|H2])|(H2 & H1)]; apply IH in H1; auto.
    + cbn in H3. rewrite (H2 eq_refl), <- H1. destruct (Nat.ltb_spec (a + d) a'); auto. lia.
    + cbn in H2. destruct e'; [destruct H2..|]. destruct r; [|destruct H2]. destruct H2 as (_ & H2). destruct (H2 eq_refl) as (-> & H3).
      destruct (Nat.ltb_spec (a + d) a'); [lia|]. now rewrite <- H1.
    + rewrite <- H1. cbn in H2. destruct e' as [w|x|]; [specialize (H2 eq_refl)|specialize (H2 eq_refl)|destruct H2 as (H2 & H3); specialize (H3 eq_refl); lia];
        (destruct (Nat.ltb_spec (a + d) a'); [lia|reflexivity]).
Qed.

(** A scheduler that runs tasks inside schedule(): the first value is the end. *)
Section Sync.
  Context {V : Type} (D : machine V) (prompt : bool) (period : nat) (v : V) (src0 : list (ev V)) (d0 : mst D).
  Notation st := (bst D).
  Definition blocked (s : st) (tr : list (dlab V)) : Prop :=
    b_w s = None /\ b_pend s = [] /\
    (b_s s = SNext /\ b_src s = Next v :: src0 /\ b_fin s = false /\ b_mtx s = false /\ b_time s = None /\ ins tr = [] \/
     b_s s = SNext /\ mdisp D (b_d s) = true \/ b_s s = SUnlock /\ mdisp D (b_d s) = true \/
     b_mtx s = true /\ (exists a, ins tr = [(Next v, a)]) /\ (exists t, b_s s = SSched t \/ b_s s = SSync (PTask t) \/ b_s s = SSync PRun)) /\
    (mdisp D (b_d s) = true -> In DKill tr) /\ (length (ins tr) <= 1) /\ shown tr = [].
  Lemma blocked_main : lawful D -> forall ticks kills tr s ts, mdisp D d0 = false ->
    gexec (bstep D true prompt period) (b_init D (Next v :: src0) d0, b_threads ticks kills) tr (s, ts) -> blocked s tr.
  Proof.
    intros LD ticks kills tr s ts DD X.
    apply (gexec_inv (bstep D true prompt period) (fun s _ tr => blocked s tr)) in X; [exact X|auto| |].
    - intros s1 it _ tr1 s2 its ls (W & P & H & K & L & SH) E. destruct it; cbn [bstep] in E.
      + unfold src_step in E. destruct H as [(H1 & H2 & H3 & H4 & H5 & H6)|[(H1 & H2)|[(H1 & H2)|(H1 & H2 & t & H3)]]].
        * rewrite H1, H2 in E. cbn [b_fin b_d b_mtx b_time b_now] in E. rewrite H3 in E. cbn [orb] in E. destruct (mdisp D (b_d s1)) eqn:DI.
          -- inversion E; subst. rewrite app_nil_r. repeat split; auto.
          -- rewrite H4, H5 in E. inversion E; subst. unfold blocked. cbn. rewrite ins_app, shown_app, H6, SH. cbn. repeat split; auto.
             ++ right. right. right. split; auto. split; eauto.
             ++ rewrite DI. discriminate.
        * rewrite H1 in E. destruct (b_src s1) as [|e r] eqn:SR; [inversion E; subst; rewrite app_nil_r; repeat split; auto|].
          cbn [b_fin b_d] in E. rewrite H2, Bool.orb_true_r in E. inversion E; subst. rewrite app_nil_r. unfold blocked. cbn. repeat split; auto.
        * rewrite H1 in E. inversion E; subst. rewrite app_nil_r. unfold blocked. cbn. repeat split; auto.
        * destruct H3 as [H3|[H3|H3]]; rewrite H3 in E.
          -- inversion E; subst. rewrite app_nil_r. unfold blocked. cbn. repeat split; auto. right. right. right. split; auto. split; eauto.
          -- cbn [task] in E. destruct (mdisp D (b_d s1)) eqn:DI.
             ++ inversion E; subst. rewrite app_nil_r. unfold blocked. cbn. rewrite DI. repeat split; auto.
             ++ destruct (t <=? b_now s1); [|discriminate]. inversion E; subst. rewrite app_nil_r. unfold blocked. cbn. rewrite DI. repeat split; auto.
                right. right. right. split; auto. split; auto. exists t. auto.
          -- cbn [task] in E. rewrite H1 in E. discriminate.
      + unfold work_step in E. rewrite W, P in E. discriminate.
      + destruct (held D prompt s1); [discriminate|]. inversion E; subst. rewrite app_nil_r. unfold blocked. cbn. repeat split; auto.
      + inversion E; subst. unfold blocked. cbn. rewrite ins_app, shown_app. cbn. rewrite !app_nil_r. repeat split; auto.
        * rewrite (law_kill D LD). destruct H as [H|[(H1 & H2)|[(H1 & H2)|H]]]; auto. 
        * intros _. apply in_app_iff. right. now left.
    - unfold blocked. cbn. rewrite DD. split; auto. split; auto. split; [left; auto 10|]. split; [discriminate|]. auto.
  Qed.
End Sync.
