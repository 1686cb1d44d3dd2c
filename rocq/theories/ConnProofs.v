(** connectable_observable and ref_count, one thread. *)
From Verif Require Import Base Machine MachineProofs SubjSpec SubjModel SubjProofs ConnSpec ConnModel.

Lemma cset_length : forall l k w, length (cset l k w) = length l.
Proof. induction l as [|x l IH]; intros [|k] w; cbn; auto. Qed.
Lemma cset_nth : forall l k w j d, nth j (cset l k w) d = if (j =? k) && (k <? length l) then w else nth j l d.
Proof.
  induction l as [|x l IH]; intros [|k] w [|j] d; cbn [cset nth length]; auto.
  - now rewrite andb_false_r.
  - rewrite IH. cbn [Nat.eqb]. destruct (j =? k); cbn [andb]; auto.
Qed.

Section ConnP.
  Context {V : Type} (D : machine V) (L : lawful D).
  Notation cn := (cn D).
  Notation none := (fun (_ : nat) (_ : V) => @nil act) (only parsing).

  Lemma cget_set : forall (c : cn) k w j, cget D (set_w D c k w) j = if (j =? k) && (k <? length (c_w D c)) then w else cget D c j.
  Proof. intros. unfold cget, set_w. cbn. apply cset_nth. Qed.
  Lemma cget_out : forall (c : cn) k, length (c_w D c) <= k -> cget D c k = CW None true false.
  Proof. intros. unfold cget. now apply nth_overflow. Qed.

  (** ** The connection in force *)
  Record P (c : cn) (cur : option nat) : Prop := MkP {
    p_src : forall k, cw_src (cget D c k) = true <-> cur = Some k;
    p_flag : forall k, cur = Some k -> cw_flag (cget D c k) = false /\ c_cur D c = Some k;
    p_down : forall k, c_cur D c = Some k -> (cw_flag (cget D c k) = true \/ cur = Some k) /\ k < length (c_w D c)
  }.
  Definition same (c c' : cn) : Prop :=
    c_g D c' = c_g D c /\ c_cur D c' = c_cur D c /\ c_ref D c' = c_ref D c /\ length (c_w D c') = length (c_w D c).
  Lemma same_trans : forall a b c, same a b -> same b c -> same a c.
  Proof. unfold same. intuition congruence. Qed.
  (** At most the connection in force is dropped. *)
  Definition drops (c : cn) (cur : option nat) (x : cn * list (clab V)) : Prop :=
    same c (fst x) /\
    (snd x = [] /\ P (fst x) cur \/ exists k, cur = Some k /\ snd x = [JOff k] /\ P (fst x) None).

  Lemma p_lt : forall c cur k, P c cur -> cur = Some k -> k < length (c_w D c).
  Proof.
    intros c cur k [PS _ _] E. destruct (Nat.lt_ge_cases k (length (c_w D c))); auto.
    apply PS in E. rewrite cget_out in E by auto. discriminate.
  Qed.
  Lemma cut_drops : forall c cur k, P c cur -> drops c cur (cut D c k).
  Proof.
    intros c cur k PC. pose proof PC as [PS PF PD]. unfold cut, drops, same. cbn [fst snd]. split; [cbn; rewrite cset_length; auto|].
    destruct (cw_src (cget D c k)) eqn:E.
    - right. exists k. apply PS in E. subst cur. pose proof (p_lt _ _ _ PC eq_refl) as LT. apply Nat.ltb_lt in LT.
      split; auto. split; auto. split; intros j; rewrite ?cget_set, ?LT, ?andb_true_r; try discriminate.
      + destruct (Nat.eqb_spec j k); cbn; [split; discriminate|]. rewrite PS. split; congruence.
      + cbn [set_w c_cur c_w]. rewrite cset_length. intro H. destruct (PD _ H) as (X & Y). split; auto. left.
        destruct (Nat.eqb_spec j k); cbn; auto. destruct X as [X|X]; auto. congruence.
    - left. split; auto. split; intros j; rewrite ?cget_set; cbn [set_w c_cur c_w]; rewrite ?cset_length.
      + destruct (_ && _) eqn:Z; auto. apply andb_true_iff in Z as (Z & _). apply Nat.eqb_eq in Z. subst. cbn. rewrite <- PS, E. tauto.
      + intro Z. destruct (_ && _) eqn:Y; auto. apply andb_true_iff in Y as (Y & _). apply Nat.eqb_eq in Y. subst j. apply PS in Z. congruence.
      + intro Z. destruct (PD _ Z). split; auto. destruct (_ && _) eqn:Y; cbn; auto.
  Qed.
  Lemma set_cnt_P : forall c cur k n, P c cur -> P (set_w D c k (CW n (cw_flag (cget D c k)) (cw_src (cget D c k)))) cur.
  Proof.
    intros c cur k n [PS PF PD].
    assert (X : forall j, cw_flag (cget D (set_w D c k (CW n (cw_flag (cget D c k)) (cw_src (cget D c k)))) j) = cw_flag (cget D c j) /\
      cw_src (cget D (set_w D c k (CW n (cw_flag (cget D c k)) (cw_src (cget D c k)))) j) = cw_src (cget D c j)).
    { intro j. rewrite cget_set. destruct (_ && _) eqn:Y; auto. apply andb_true_iff in Y as (Y & _). apply Nat.eqb_eq in Y. now subst. }
    split; intros j; destruct (X j) as (X1 & X2); rewrite ?X1, ?X2; auto. cbn [set_w c_w]. rewrite cset_length. auto.
  Qed.
  Lemma release_drops : forall c cur k, P c cur -> drops c cur (release D c k).
  Proof.
    intros c cur k PC. unfold release. destruct (cw_cnt (cget D c k)) as [[|[|n]]|].
    - split; [unfold same; cbn; rewrite cset_length; auto|]. left. split; auto. now apply set_cnt_P.
    - now apply cut_drops.
    - split; [unfold same; cbn; rewrite cset_length; auto|]. left. split; auto. now apply set_cnt_P.
    - split; [unfold same; auto|]. auto.
  Qed.
  Lemma releases_drops : forall l c cur, P c cur -> drops c cur (releases D c l).
  Proof.
    induction l as [|x l IH]; intros c cur PC; cbn [releases]; [split; [unfold same; auto|auto]|].
    pose proof (release_drops c cur (snd x) PC) as (S1 & H1). destruct (release D c (snd x)) as [c1 l1]. cbn [fst snd] in *.
    destruct H1 as [(-> & P1)|(k & -> & -> & P1)].
    - destruct (IH c1 cur P1) as (S2 & H2). destruct (releases D c1 l) as [c2 l2]. cbn [fst snd] in *. split; cbn [fst snd app]; auto. eapply same_trans; eauto.
    - destruct (IH c1 None P1) as (S2 & H2). destruct (releases D c1 l) as [c2 l2]. cbn [fst snd] in *. split; cbn [fst snd app]; auto; [eapply same_trans; eauto|].
      destruct H2 as [(-> & P2)|(j & Z & _)]; [|discriminate]. right. eauto.
  Qed.
  Lemma P_same_w : forall c c' cur, c_w D c' = c_w D c -> c_cur D c' = c_cur D c -> P c cur -> P c' cur.
  Proof. intros c c' cur W C [PS PF PD]. unfold cget in *. split; unfold cget; rewrite ?W, ?C; auto. Qed.
  Lemma settle_drops : forall c cur, P c cur -> drops c cur (settle D c).
  Proof.
    intros c cur PC. unfold settle. destruct (releases_drops (filter (off D c) (c_own D c)) c cur PC) as (S1 & H1).
    destruct (releases D c (filter (off D c) (c_own D c))) as [c1 l1]. cbn [fst snd] in *. split; cbn [fst snd]; auto.
    destruct H1 as [(-> & P1)|(k & -> & -> & P1)]; [left; split; auto|right; exists k; split; auto; split; auto]; (eapply P_same_w; [| |exact P1]; reflexivity).
  Qed.

  Lemma connect_P : forall c cur k, P c cur -> k < length (c_w D c) -> cw_src (cget D c k) = false ->
    c_g D (fst (connect D c k)) = c_g D c /\
    (snd (connect D c k) = [] /\ P (fst (connect D c k)) cur \/
     cur = None /\ s_flag D (c_g D c) = false /\ snd (connect D c k) = [JOn k] /\ P (fst (connect D c k)) (Some k)).
  Proof.
    intros c cur k PC K NS. pose proof PC as [PS PF PD]. unfold connect.
    destruct (s_flag D (c_g D c)) eqn:FL; cbn [fst snd]; auto.
    destruct (down D c (c_cur D c)) eqn:DN; cbn [negb fst snd]; auto.
    assert (CN : cur = None).
    { destruct cur as [j|]; auto. destruct (PF j eq_refl) as (F & E). rewrite E in DN. cbn in DN. congruence. }
    subst cur. set (c1 := CN D (c_g D c) (c_w D c) (Some k) (c_ref D c) (c_own D c)).
    assert (G : forall j, cget D c1 j = cget D c j) by reflexivity. rewrite !G.
    apply Nat.ltb_lt in K as K'.
    destruct (cw_flag (cget D c k)) eqn:FK; cbn [fst snd]; split; auto.
    - left. split; auto. split; auto; [discriminate|]. intros j J. rewrite G. cbn in J. inversion J; subst. auto.
    - right. split; auto. split; auto. split; auto. split; intros j; rewrite ?cget_set, ?G; cbn [c1 set_w c_w c_cur]; rewrite ?K', ?andb_true_r.
      + destruct (Nat.eqb_spec j k); cbn; [subst; tauto|]. rewrite PS. split; congruence.
      + intro Z. inversion Z; subst. rewrite Nat.eqb_refl. auto.
      + rewrite cset_length. intro Z. inversion Z; subst. auto.
  Qed.
  Lemma fresh_P : forall c cur n, P c cur -> P (fresh D c n) cur /\ cget D (fresh D c n) (length (c_w D c)) = CW (Some n) false false /\
    (forall j, j <> length (c_w D c) -> cget D (fresh D c n) j = cget D c j).
  Proof.
    intros c cur n PC. pose proof PC as [PS PF PD].
    assert (A : cget D (fresh D c n) (length (c_w D c)) = CW (Some n) false false).
    { unfold cget, fresh. cbn. rewrite app_nth2, Nat.sub_diag by lia. reflexivity. }
    assert (B : forall j, j <> length (c_w D c) -> cget D (fresh D c n) j = cget D c j).
    { intros j J. unfold cget, fresh. cbn. destruct (Nat.lt_ge_cases j (length (c_w D c))); [now rewrite app_nth1|].
      rewrite !nth_overflow; auto. rewrite app_length. cbn. lia. }
    split; [|auto]. split; intros j.
    - destruct (Nat.eq_dec j (length (c_w D c))) as [->|N]; [rewrite A|rewrite B by auto; apply PS].
      split; [discriminate|]. intro E. pose proof (p_lt _ _ _ PC E). lia.
    - intro E. pose proof (p_lt _ _ _ PC E). rewrite B by lia. now apply PF.
    - intro E. destruct (PD _ E). rewrite B by lia. split; auto. cbn. rewrite app_length. lia.
  Qed.

  (** ** Any history *)
  Definition base (c : cn) (cur : option nat) (f : fin V) (on : nat -> bool) : Prop :=
    P c cur /\ Inv D f on (c_g D c) /\ f <> Dropped /\ (cur <> None -> f = Open).
  Lemma inv_flag : forall f on g, Inv D f on g -> s_flag D g = false -> f = Open.
  Proof. intros f on g I F. rewrite (i_flag _ _ _ _ I) in F. destruct f; auto; discriminate. Qed.
  Lemma drops_force : forall c cur x, drops c cur x -> fold_left force1 (snd x) cur = (if snd x then cur else None) /\ P (fst x) (fold_left force1 (snd x) cur) /\ switches cur (snd x) /\ passed (snd x) = [].
  Proof. intros c cur x (_ & [(-> & H)|(k & -> & -> & H)]); cbn; auto. Qed.
  Lemma set_g_P : forall c cur g, P c cur -> P (set_g D c g) cur.
  Proof. intros. eapply P_same_w; [| |exact H]; reflexivity. Qed.
  Lemma force_app : forall (a b : list (clab V)) cur, fold_left force1 (a ++ b) cur = fold_left force1 b (fold_left force1 a cur).
  Proof. intros. apply fold_left_app. Qed.
  Lemma switches_app : forall (a b : list (clab V)) cur, switches cur a -> switches (fold_left force1 a cur) b -> switches cur (a ++ b).
  Proof. induction a as [|[k|k|e] a IH]; intros b cur; cbn; intuition. Qed.
  Lemma passed_app : forall a b : list (clab V), passed (a ++ b) = passed a ++ passed b.
  Proof. intros. apply flat_map_app. Qed.
  Lemma drops_le : forall c cur x k, drops c cur x -> fold_left force1 (snd x) cur = Some k -> cur = Some k.
  Proof. intros c cur x k (_ & [(E & H)|(j & -> & E & H)]); rewrite E; cbn; congruence. Qed.
  Lemma drops_src : forall c cur x k, P c cur -> drops c cur x -> cw_src (cget D c k) = false -> cw_src (cget D (fst x) k) = false.
  Proof.
    intros c cur x k PC DR Z. destruct (cw_src (cget D (fst x) k)) eqn:Y; auto.
    destruct (drops_force _ _ _ DR) as (_ & P2 & _). apply (p_src _ _ P2) in Y. apply (drops_le _ _ _ _ DR) in Y. apply (p_src _ _ PC) in Y. congruence.
  Qed.

  (** [set_upstream] and reference counting touch neither the source nor the connection. *)
  Lemma acquire_P : forall c cur i, P c cur -> P (fst (acquire D c i)) cur /\ c_g D (fst (acquire D c i)) = c_g D c /\
    (forall k, snd (acquire D c i) = Some k -> k < length (c_w D (fst (acquire D c i))) /\ cw_src (cget D (fst (acquire D c i)) k) = false).
  Proof.
    intros c cur i PC. unfold acquire. destruct (down D c (c_ref D c)) eqn:DN; cbn [negb].
    - destruct (fresh_P c cur 1 PC) as (F1 & F2 & F3). cbn [fst snd]. split; [eapply P_same_w; [| |exact F1]; reflexivity|]. split; auto.
      intros k E. inversion E; subst. split; [cbn; rewrite app_length; cbn; lia|]. 
      change (cget D {| c_g := c_g D (fresh D c 1); c_w := c_w D (fresh D c 1); c_cur := c_cur D (fresh D c 1); c_ref := Some (length (c_w D c)); c_own := c_own D (fresh D c 1) ++ [(i, length (c_w D c))] |} (length (c_w D c))) with (cget D (fresh D c 1) (length (c_w D c))). now rewrite F2.
    - destruct (c_ref D c) as [k|]; cbn [fst snd]; [|split; auto; split; auto; discriminate].
      destruct (cw_cnt (cget D c k)); cbn [fst snd]; split; auto; try (split; auto; discriminate).
      eapply P_same_w; [| |apply (set_cnt_P c cur k (Some (S n)) PC)]; reflexivity.
  Qed.

  (** Nobody comes back to life; who is subscribed has been put into the list or is over; the
      end of the source reaches everybody in the list. *)
  Definition grows (c c' : cn) (on on' : nat -> bool) (o : hop V) : Prop :=
    (forall j, on j = true -> on' j = true) /\
    (forall j, mdisp D (s_sub D (c_g D c) j) = true -> mdisp D (s_sub D (c_g D c') j) = true) /\
    match o with
    | HSub i | HRef i => on' i = true \/ mdisp D (s_sub D (c_g D c') i) = true
    | HUnsub i => mdisp D (s_sub D (c_g D c') i) = true
    | HSrc k e => is_term e = true -> cw_src (cget D c k) = true -> forall j, on j = true -> mdisp D (s_sub D (c_g D c') j) = true
    | _ => True
    end.
  Lemma grows_same : forall c c' on o, c_g D c' = c_g D c -> match o with HConnect | HCut _ => True | _ => False end -> grows c c' on on o.
  Proof. intros c c' on o E H. split; auto. rewrite E. split; auto. destruct o; auto; contradiction. Qed.

  Lemma hop_ok : forall o c cur f on, base c cur f on -> match o with HSub i | HRef i => on i = false | _ => True end ->
    exists c' ls f' on', hop_step D c o = Some (c', ls) /\ base c' (fold_left force1 ls cur) f' on' /\ reply_ok cur (o, ls) /\
      sop_run D none (c_g D c) (seen [(o, ls)]) = Some (c_g D c') /\
      (forall j, on' j = true -> on j = true \/ o = HSub j \/ o = HRef j) /\ grows c c' on on' o.
  Proof.
    intros o c cur f on (PC & I & ND & CF) ON.
    assert (STEP : forall q g, match q with OSub i => on i = false | ODispose => False | _ => True end -> sop_step D none (c_g D c) q = Some g ->
      exists f' on', Inv D f' on' g /\ f' <> Dropped /\ (match q with OEmit e => f = Open -> f' = if is_term e then Ended e else Open | _ => f' = f end) /\ (forall j, on' j = true -> on j = true \/ q = OSub j) /\
        (forall j, on j = true -> on' j = true) /\ (forall j, mdisp D (s_sub D (c_g D c) j) = true -> mdisp D (s_sub D g j) = true) /\
        match q with
        | OSub i => on' i = true \/ mdisp D (s_sub D g i) = true
        | OUnsub i => mdisp D (s_sub D g i) = true
        | OEmit e => f = Open -> is_term e = true -> forall j, on j = true -> mdisp D (s_sub D g j) = true
        | _ => True
        end).
    { assert (MS : forall d e, mdisp D d = true -> mdisp D (mstep D d e) = true) by (intros d e H; now rewrite (law_dead _ L)).
      intros q g H R. destruct q as [j|j|e|]; cbn [sop_step] in R; [| | |contradiction].
      - inversion R; subst. destruct f as [|x|] eqn:F; [| |congruence].
        + destruct (subscribe_open D on _ j I H) as (J & SU). exists Open, (turn_on on j). split; [exact J|]. split; auto. split; auto. unfold turn_on. split; [intros i; destruct (Nat.eqb_spec i j); subst; auto|].
          split; [intros i; destruct (Nat.eqb_spec i j); auto|]. split; [intros i; now rewrite SU|]. rewrite Nat.eqb_refl. auto.
        + destruct (subscribe_over D L (Ended x) on _ j I) as (J & SU); [discriminate|]. exists (Ended x), on. split; [exact J|]. split; auto. split; auto. split; auto. split; auto.
          split; [intros i; rewrite SU; destruct (Nat.eqb_spec i j); subst; auto|]. right. rewrite SU, Nat.eqb_refl.
          apply (law_term _ L). pose proof (i_st _ _ _ _ I) as ST. destruct x; auto; destruct (s_st D (c_g D c)); contradiction.
      - inversion R; subst. exists f, on. split; [now apply unsub_inv|]. split; auto. split; auto. split; auto. split; auto.
        split; [intros i; rewrite unsub_sub; destruct (Nat.eqb_spec i j); auto; intros _; apply (law_kill _ L)|]. rewrite unsub_sub, Nat.eqb_refl. apply (law_kill _ L).
      - destruct f as [|x|] eqn:F; [| |congruence].
        + destruct (emit_open D L on _ e I) as (g' & R' & J & SU). unfold SubjProofs.none in R'. rewrite R' in R. inversion R; subst. exists (if is_term e then Ended e else Open), on. split; [exact J|]. split; [destruct (is_term e); discriminate|]. split; auto. split; auto. split; auto.
          split; [intros i; rewrite SU; destruct (on i); auto|]. intros _ T i O. rewrite SU, O. now apply (law_term _ L).
        + pose proof (emit_over D (Ended x) on _ e I) as R'. unfold SubjProofs.none in R'. rewrite R' in R by discriminate. inversion R; subst. exists (Ended x), on. split; [exact I|]. split; auto. split; [discriminate|]. split; auto. split; auto. split; auto. discriminate. }
    destruct o as [i|i|i| |k|k e]; cbn [hop_step].
    - (* HSub *)
      destruct (STEP (OSub i) _ ON eq_refl) as (f' & on' & J & N & -> & OO & GR). eexists _, [], f, on'. split; [reflexivity|]. cbn [fold_left].
      split; [split; [now apply set_g_P|]; split; auto|]. split; [exact Logic.I|]. split; auto. split; [|exact GR].
      intros j H. destruct (OO j H) as [X|X]; auto. inversion X; auto.
    - (* HRef *)
      destruct (acquire_P c cur i PC) as (P1 & G1 & U1). destruct (acquire D c i) as [c1 up]. cbn [fst snd] in *.
      pose proof (settle_drops c1 cur P1) as D2. destruct (settle D c1) as [c2 l2].
      destruct (drops_force _ _ _ D2) as (_ & P2 & S2 & Q2). pose proof D2 as ((G2 & _ & _ & L2) & _). cbn [fst snd] in *. rewrite G1 in G2.
      set (c2' := set_g D c2 (on_subscribe D (c_g D c2) i)).
      assert (P2' : P c2' (fold_left force1 l2 cur)) by (now apply set_g_P).
      pose proof (settle_drops c2' _ P2') as D3. destruct (settle D c2') as [c3 l3].
      destruct (drops_force _ _ _ D3) as (_ & P3 & S3 & Q3). pose proof D3 as ((G3 & _ & _ & L3) & _). cbn [fst snd] in *.
      change (c_g D c2') with (on_subscribe D (c_g D c2) i) in G3. rewrite G2 in G3.
      destruct (STEP (OSub i) _ ON eq_refl) as (f' & on' & J & N & -> & OO & GR).
      assert (OO' : forall j, on' j = true -> on j = true \/ @HRef V i = HSub j \/ @HRef V i = HRef j).
      { intros j H. destruct (OO j H) as [X|X]; auto. inversion X; auto. }
      assert (LE : forall k, fold_left force1 l3 (fold_left force1 l2 cur) = Some k -> cur = Some k).
      { intros k H. apply (drops_le _ _ _ _ D3) in H. apply (drops_le _ _ _ _ D2) in H. exact H. }
      assert (B3 : base c3 (fold_left force1 (l2 ++ l3) cur) f on').
      { rewrite force_app. split; [exact P3|]. rewrite G3. split; [exact J|]. split; auto. intro X. apply CF.
        destruct (fold_left force1 l3 (fold_left force1 l2 cur)) as [k|] eqn:Y; [|congruence]. rewrite (LE k); congruence. }
      assert (PLAIN : exists c' ls f' on', Some (c3, l2 ++ l3) = Some (c', ls) /\ base c' (fold_left force1 ls cur) f' on' /\ reply_ok cur (HRef i, ls) /\
        sop_run D none (c_g D c) (seen [(HRef i, ls)]) = Some (c_g D c') /\ (forall j, on' j = true -> on j = true \/ @HRef V i = HSub j \/ @HRef V i = HRef j) /\ grows c c' on on' (HRef i)).
      { exists c3, (l2 ++ l3), f, on'. split; auto. split; [exact B3|]. split; [red; cbn [fst snd]; now apply switches_app|]. split; [|split; [exact OO'|unfold grows; rewrite G3; exact GR]].
        unfold seen. cbn [flat_map fst snd as_sop]. rewrite passed_app, Q2, Q3. cbn. now rewrite G3. }
      destruct up as [k|]; [|exact PLAIN]. destruct (cw_flag (cget D c3 k)) eqn:FK; [exact PLAIN|].
      destruct (U1 k eq_refl) as (KL & NS).
      assert (NS3 : cw_src (cget D c3 k) = false).
      { apply (drops_src c2' _ (c3, l3) k P2' D3). change (cget D c2' k) with (cget D c2 k). apply (drops_src c1 _ (c2, l2) k P1 D2). exact NS. }
      destruct (connect_P c3 _ k P3) as (G4 & CP); [cbn in L3; lia|exact NS3|]. destruct (connect D c3 k) as [c4 l4]. cbn [fst snd] in *.
      exists c4, (l2 ++ l3 ++ l4), f, on'. split; auto. destruct B3 as (_ & J3 & _ & CF3). rewrite force_app in CF3.
      assert (PQ : passed l4 = [] /\ switches (fold_left force1 l3 (fold_left force1 l2 cur)) l4 /\ P c4 (fold_left force1 l4 (fold_left force1 l3 (fold_left force1 l2 cur))) /\
        (fold_left force1 l4 (fold_left force1 l3 (fold_left force1 l2 cur)) <> None -> f = Open)).
      { destruct CP as [(-> & P4)|(E & FL & -> & P4)]; cbn [fold_left force1 passed flat_map switches]; [tauto|]. split; [reflexivity|]. split; [tauto|]. split; [exact P4|]. intros _. rewrite G3 in FL. exact (inv_flag _ _ _ J FL). }
      destruct PQ as (PQ1 & PQ2 & PQ3 & PQ4).
      split; [|split; [|split; [|split; [exact OO'|unfold grows; rewrite G4, G3; exact GR]]]].
      + rewrite !force_app. split; auto. rewrite G4, G3. auto.
      + red. cbn [fst snd]. apply switches_app; auto. apply switches_app; auto.
      + unfold seen. cbn [flat_map fst snd as_sop]. rewrite !passed_app, Q2, Q3, PQ1. cbn. now rewrite G4, G3.
    - (* HUnsub *)
      set (c1 := set_g D c (unsubscribe D (c_g D c) i)).
      assert (P1 : P c1 cur) by (now apply set_g_P).
      pose proof (settle_drops c1 _ P1) as D2. destruct (settle D c1) as [c2 l2].
      destruct (drops_force _ _ _ D2) as (_ & P2 & S2 & Q2). pose proof D2 as ((G2 & _) & _). cbn [fst snd] in *.
      destruct (STEP (OUnsub i) _ Logic.I eq_refl) as (f' & on' & J & N & -> & OO & GR).
      exists c2, l2, f, on'. split; auto. split; [|split; [exact S2|split; [|split; [intros j H; destruct (OO j H) as [X|X]; auto; discriminate X|unfold grows; rewrite G2; exact GR]]]].
      + split; auto. rewrite G2. split; [exact J|]. split; auto. intro X. apply CF.
        destruct (fold_left force1 l2 cur) as [k|] eqn:Y; [|congruence]. rewrite (drops_le _ _ _ _ D2 Y); congruence.
      + unfold seen. cbn [flat_map fst snd as_sop]. rewrite Q2. cbn. now rewrite G2.
    - (* HConnect *)
      destruct (fresh_P c cur 0 PC) as (P1 & W1 & _).
      destruct (connect_P (fresh D c 0) cur (length (c_w D c)) P1) as (G4 & CP); [cbn; rewrite app_length; cbn; lia|now rewrite W1|].
      destruct (connect D (fresh D c 0) (length (c_w D c))) as [c4 l4]. cbn [fst snd] in *. change (c_g D (fresh D c 0)) with (c_g D c) in *.
      exists c4, l4, f, on. split; auto. destruct CP as [(-> & P4)|(-> & FL & -> & P4)]; cbn [fold_left force1].
      + split; [split; auto; rewrite G4; auto|]. split; [exact Logic.I|]. split; [cbn; now rewrite G4|]. split; auto. now apply grows_same.
      + split; [split; auto; rewrite G4; split; auto; split; auto; intros _; eapply inv_flag; eauto|]. split; [cbn; auto|]. split; [cbn; now rewrite G4|]. split; auto. now apply grows_same.
    - (* HCut *)
      pose proof (cut_drops c cur k PC) as D2. destruct (cut D c k) as [c2 l2].
      destruct (drops_force _ _ _ D2) as (_ & P2 & S2 & Q2). pose proof D2 as ((G2 & _) & _). cbn [fst snd] in *.
      exists c2, l2, f, on. split; auto. split; [|split; [exact S2|split; [|split; [auto|now apply grows_same]]]].
      + split; auto. rewrite G2. split; auto. split; auto. intro X. apply CF.
        destruct (fold_left force1 l2 cur) as [j|] eqn:Y; [|congruence]. rewrite (drops_le _ _ _ _ D2 Y); congruence.
      + unfold seen. cbn [flat_map fst snd as_sop]. rewrite Q2. cbn. now rewrite G2.
    - (* HSrc *)
      destruct (cw_src (cget D c k)) eqn:SR; cbn [andb].
      + apply (p_src _ _ PC) in SR as E. subst cur. destruct (p_flag _ _ PC k eq_refl) as (FL & _). rewrite FL. cbn [negb].
        assert (f = Open) by (apply CF; discriminate). subst f.
        destruct (emit_open D L on _ e I) as (g & R & _ & _). unfold SubjProofs.none in R. rewrite R.
        destruct (STEP (OEmit e) g Logic.I R) as (f' & on' & J & N & FE & OO & GR1 & GR2 & GR3). specialize (FE eq_refl). specialize (GR3 eq_refl).
        assert (OO' : forall j, on' j = true -> on j = true \/ @HSrc V k e = HSub j \/ HSrc k e = HRef j) by (intros j H; destruct (OO j H) as [X|X]; auto; discriminate X).
        set (c1 := set_g D c g). assert (P1 : P c1 (Some k)) by (now apply set_g_P).
        pose proof (settle_drops c1 _ P1) as D2. destruct (settle D c1) as [c2 l2].
        destruct (drops_force _ _ _ D2) as (_ & P2 & S2 & Q2). pose proof D2 as ((G2 & _) & OR). cbn [fst snd] in *.
        change (c_g D c1) with g in G2.
        destruct (is_term e) eqn:T.
        * pose proof (cut_drops c2 _ k P2) as D3. destruct (cut D c2 k) as [c3 l3] eqn:CU.
          destruct (drops_force _ _ _ D3) as (_ & P3 & S3 & Q3). pose proof D3 as ((G3 & _) & OR3). cbn [fst snd] in *.
          assert (LS : l2 ++ l3 = [JOff k]).
          { unfold cut in CU. inversion CU; subst. destruct OR as [(-> & Z)|(j & E & -> & Z)].
            - assert (Y : cw_src (cget D c2 k) = true) by (now apply (p_src _ _ Z)). now rewrite Y.
            - inversion E; subst. destruct (cw_src (cget D c2 j)) eqn:Y; auto. apply (p_src _ _ Z) in Y. discriminate. }
          exists c3, (JEmit e :: l2 ++ l3), f', on'. split; auto.
          split; [|split; [|split]].
          -- rewrite LS. cbn. split; [|rewrite G3, G2; split; auto; split; [exact N|congruence]].
             rewrite <- force_app, LS in P3. exact P3.
          -- red. cbn [fst snd is_on]. rewrite Nat.eqb_refl. exists (l2 ++ l3). auto.
          -- unfold seen. cbn [flat_map fst snd as_sop passed]. fold (passed (l2 ++ l3)). rewrite passed_app, Q2, Q3. cbn. rewrite R. now rewrite G3, G2.
          -- split; auto. split; auto. rewrite G3, G2. auto.
        * exists c2, (JEmit e :: l2 ++ []), f', on'. rewrite app_nil_r. split; auto.
          split; [|split; [|split]].
          -- cbn. split; auto. rewrite G2. split; auto.
          -- red. cbn [fst snd is_on]. rewrite Nat.eqb_refl. exists l2. split; auto. destruct OR as [(-> & Z)|(j & E & -> & Z)]; auto. inversion E. auto.
          -- unfold seen. cbn [flat_map fst snd as_sop passed]. fold (passed l2). rewrite Q2. cbn. rewrite R. now rewrite G2.
          -- split; auto. split; auto. rewrite G2. split; [exact GR2|]. intros T'. congruence.
      + exists c, [], f, on. split; auto. split; [split; auto|]. split; [|split; auto; split; auto; split; auto; split; auto; congruence]. red. cbn [fst snd].
        destruct (is_on cur k) eqn:O; auto. unfold is_on in O. destruct cur as [j|]; [|discriminate]. apply Nat.eqb_eq in O. subst j.
        assert (cw_src (cget D c k) = true) by (now apply (p_src _ _ PC)). congruence.
  Qed.

  Lemma seen_cons : forall (x : @reply V) r, seen (x :: r) = seen [x] ++ seen r.
  Proof. intros. unfold seen. cbn [flat_map]. now rewrite app_nil_r. Qed.
  Lemma sop_run_app : forall a b g, sop_run D none g (a ++ b) = match sop_run D none g a with Some g' => sop_run D none g' b | None => None end.
  Proof. induction a as [|o a IH]; intros b g; cbn; auto. destruct (sop_step D none g o); auto. Qed.
  Lemma in_force_cons : forall (x : @reply V) r cur, in_force cur (x :: r) = in_force (in_force cur [x]) r.
  Proof. intros. unfold in_force. cbn. now rewrite app_nil_r, fold_left_app. Qed.

  Lemma hop_run_ok : forall h c cur f on, base c cur f on -> NoDup (hsubs h) -> (forall i, In i (hsubs h) -> on i = false) ->
    exists c' r f' on', hop_run D c h = Some (c', r) /\ base c' (in_force cur r) f' on' /\ shared cur r /\
      sop_run D none (c_g D c) (seen r) = Some (c_g D c') /\ map fst r = h.
  Proof.
    induction h as [|o h IH]; intros c cur f on B ND ON; cbn [hop_run].
    - exists c, [], f, on. cbn. auto.
    - destruct (hop_ok o c cur f on B) as (c1 & ls & f1 & on1 & R1 & B1 & K1 & Q1 & O1 & _).
      { destruct o; auto; apply ON; now left. }
      rewrite R1. destruct (IH c1 _ f1 on1 B1) as (c2 & r & f2 & on2 & R2 & B2 & K2 & Q2 & M2).
      { destruct o; cbn in ND; auto; now inversion ND. }
      { intros i Hi. destruct (on1 i) eqn:Z; auto. destruct (O1 i Z) as [X|[X|X]].
        - rewrite ON in X; [discriminate|]. destruct o; cbn; auto.
        - subst o. cbn in ND. inversion ND. contradiction.
        - subst o. cbn in ND. inversion ND. contradiction. }
      rewrite R2. exists c2, ((o, ls) :: r), f2, on2. split; auto.
      assert (F1 : in_force cur [(o, ls)] = fold_left force1 ls cur) by (unfold in_force; cbn; now rewrite app_nil_r).
      split; [unfold in_force; cbn [flat_map snd]; rewrite fold_left_app; exact B2|]. split; [cbn [shared]; split; auto; unfold in_force; cbn [flat_map snd]; rewrite app_nil_r; auto|]. split.
      + pose proof (seen_cons (o, ls) r) as SC. unfold reply in SC. rewrite SC, sop_run_app, Q1. exact Q2.
      + cbn. now rewrite M2.
  Qed.
  Lemma base_init : forall d0, base (cn_init D d0) None Open (fun _ => false).
  Proof.
    intro d0. split; [|split; [apply init_inv|split; [discriminate|auto]]].
    split; cbn; try discriminate. intro k. unfold cget. cbn. destruct k; split; discriminate.
  Qed.
  Lemma seen_subs : forall r : list (@reply V), subs (seen r) = hsubs (map fst r).
  Proof.
    unfold reply. induction r as [|[o ls] r IH]; auto. pose proof (seen_cons (o, ls) r) as SC. unfold reply in SC. rewrite SC. unfold subs in *. rewrite flat_map_app. cbn [map fst hsubs flat_map]. unfold hsubs in *. f_equal; auto.
    unfold seen. cbn [flat_map fst snd]. rewrite app_nil_r, flat_map_app.
    assert (X : forall ls : list (clab V), flat_map (fun o => match o with OSub i => [i] | _ => [] end) (passed ls) = []).
    { induction ls0 as [|[k|k|e] l0 IH0]; cbn; auto. }
    rewrite X, app_nil_r. destruct o; reflexivity.
  Qed.

  (** ** connect() alone *)
  Lemma settle_nil : forall c : cn, c_own D c = [] -> settle D c = (c, []).
  Proof. intros [g w cu re ow] E. cbn in E. subst. reflexivity. Qed.
  Lemma subscribe_flag : forall g i, s_flag D (on_subscribe D g i) = s_flag D g.
  Proof.
    intros g i. unfold on_subscribe. destruct (s_st D g) as [p|x| |] eqn:E; auto.
    destruct p; cbn zeta; destruct (mdisp D _); rewrite ?cleanup_flag; reflexivity.
  Qed.
  Lemma hop_call : forall o c cur f on c' ls, base c cur f on -> c_own D c = [] -> match o with HRef _ => False | _ => True end ->
    hop_step D c o = Some (c', ls) ->
    c_own D c' = [] /\ connect_ok cur (s_flag D (c_g D c)) (o, ls) /\ s_flag D (c_g D c') = s_flag D (c_g D c) || ends (o, ls).
  Proof.
    intros o c cur f on c' ls (PC & I & ND & CF) OW NR E. destruct o as [i|i|i| |k|k e]; cbn [hop_step] in E; try contradiction.
    - inversion E; subst. cbn. rewrite subscribe_flag, orb_false_r. auto.
    - rewrite settle_nil in E by auto. inversion E; subst. cbn. unfold unsubscribe. rewrite cleanup_flag, orb_false_r. auto.
    - inversion E. clear E. destruct (fresh_P c cur 0 PC) as (P1 & W1 & _).
      unfold connect in H0. change (c_g D (fresh D c 0)) with (c_g D c) in H0. unfold connect_ok. cbn [fst snd].
      destruct (s_flag D (c_g D c)) eqn:FL.
      + inversion H0; subst. split; auto. split; [destruct cur; auto|]. cbn. now rewrite FL.
      + destruct cur as [k|].
        * destruct (p_flag _ _ P1 k eq_refl) as (F & C). rewrite C in H0. cbn [down] in H0. rewrite F in H0. inversion H0; subst. auto.
        * assert (DN : down D (fresh D c 0) (c_cur D (fresh D c 0)) = true).
          { destruct (c_cur D (fresh D c 0)) as [k|] eqn:C; auto. cbn [down]. destruct (p_down _ _ P1 k C) as ([X|X] & _); auto. discriminate. }
          rewrite DN in H0. cbn [negb] in H0.
          set (c1 := CN D (c_g D c) (c_w D (fresh D c 0)) (Some (length (c_w D c))) (c_ref D (fresh D c 0)) (c_own D (fresh D c 0))) in H0.
          assert (G : cget D c1 (length (c_w D c)) = CW (Some 0) false false) by exact W1.
          rewrite G in H0. cbn [cw_flag cw_cnt] in H0. inversion H0; subst. cbn. split; auto. split; eauto.
    - unfold cut in E. inversion E; subst. split; auto. split.
      + unfold connect_ok. cbn [fst snd]. unfold is_on. destruct cur as [j|].
        * destruct (Nat.eqb_spec j k) as [->|N].
          -- assert (X : cw_src (cget D c k) = true) by (now apply (p_src _ _ PC)). now rewrite X.
          -- destruct (cw_src (cget D c k)) eqn:X; auto. apply (p_src _ _ PC) in X. congruence.
        * destruct (cw_src (cget D c k)) eqn:X; auto. apply (p_src _ _ PC) in X. congruence.
      + cbn. destruct (cw_src (cget D c k)); cbn; now rewrite orb_false_r.
    - destruct (cw_src (cget D c k)) eqn:SR; cbn [andb] in E.
      + apply (p_src _ _ PC) in SR as EE. subst cur. destruct (p_flag _ _ PC k eq_refl) as (FL & _). rewrite FL in E. cbn [negb] in E.
        assert (f = Open) by (apply CF; discriminate). subst f.
        destruct (emit_open D L on _ e I) as (g & R & J & _). unfold SubjProofs.none in R. rewrite R in E.
        rewrite settle_nil in E by auto. pose proof (i_flag _ _ _ _ J) as FJ. rewrite (i_flag _ _ _ _ I).
        unfold connect_ok. cbn [fst snd is_on]. rewrite Nat.eqb_refl.
        destruct (is_term e) eqn:T; cbn [cut] in E.
        * unfold cut in E. change (cget D (set_g D c g) k) with (cget D c k) in E. rewrite SR in E. inversion E; subst. split; auto. split; auto. cbn. now rewrite T, FJ.
        * inversion E; subst. split; auto. split; auto. cbn. now rewrite T, FJ.
      + inversion E; subst. split; auto. split; [|cbn; now rewrite orb_false_r].
        unfold connect_ok. cbn [fst snd]. destruct (is_on cur k) eqn:O; auto. unfold is_on in O. destruct cur as [j|]; [|discriminate]. apply Nat.eqb_eq in O. subst j.
        assert (X : cw_src (cget D c' k) = true) by (now apply (p_src _ _ PC)). congruence.
  Qed.
  Lemma hop_run_call : forall h c cur f on c' r, base c cur f on -> c_own D c = [] -> uncounted h -> NoDup (hsubs h) -> (forall i, In i (hsubs h) -> on i = false) ->
    hop_run D c h = Some (c', r) -> connected_by_call cur (s_flag D (c_g D c)) r.
  Proof.
    induction h as [|o h IH]; intros c cur f on c' r B OW UC ND ON R; cbn [hop_run] in R; [inversion R; subst; exact Logic.I|].
    destruct (hop_ok o c cur f on B) as (c1 & ls & f1 & on1 & R1 & B1 & K1 & Q1 & O1 & _).
    { destruct o; auto; apply ON; now left. }
    rewrite R1 in R. destruct (hop_run D c1 h) as [[c2 r2]|] eqn:R2; inversion R; subst. inversion UC; subst.
    destruct (hop_call o c cur f on c1 ls B OW) as (OW1 & K & FL); auto.
    cbn [connected_by_call]. split; auto. unfold in_force. cbn [flat_map snd]. rewrite app_nil_r. rewrite <- FL.
    apply (IH c1 _ f1 on1 c' r2 B1 OW1); auto.
    - destruct o; cbn in ND; auto; now inversion ND.
    - intros i Hi. destruct (on1 i) eqn:Z; auto. destruct (O1 i Z) as [X|[X|X]].
      + rewrite ON in X; [discriminate|]. destruct o; cbn; auto.
      + subst o. cbn in ND. inversion ND. contradiction.
      + subst o. cbn in ND. inversion ND. contradiction.
  Qed.

  (** ** ref_count alone *)
  (** What the counter says; [k] is its number. *)
  Definition R (c : cn) : Prop :=
    match c_ref D c with
    | None => c_own D c = []
    | Some k => k < length (c_w D c) /\
        if cw_flag (cget D c k) then c_own D c = []
        else c_own D c <> [] /\ cw_cnt (cget D c k) = Some (length (c_own D c)) /\ Forall (fun x => snd x = k) (c_own D c)
    end.
  Lemma releases_cnt : forall l c k m, Forall (fun x : nat * nat => snd x = k) l -> k < length (c_w D c) ->
    cw_flag (cget D c k) = false -> cw_cnt (cget D c k) = Some (length l + m) ->
    let w := cget D (fst (releases D c l)) k in
    match m with
    | 0 => l <> [] -> cw_flag w = true
    | _ => cw_flag w = false /\ cw_cnt w = Some m /\ cw_src w = cw_src (cget D c k)
    end.
  Proof.
    induction l as [|x l IH]; intros c k m FO K FL CN; cbn [releases].
    - cbn [fst]. destruct m; [intro Z; now destruct Z|auto].
    - inversion FO as [|? ? X FO']; subst. cbn [length plus] in CN. unfold release. rewrite CN.
      apply Nat.ltb_lt in K as K'.
      destruct (length l + m) as [|n] eqn:LM.
      + assert (l = [] /\ m = 0) as (-> & ->) by (destruct l; cbn in LM; split; auto; lia). cbn [releases cut fst snd].
        intros _. unfold cut. cbn [fst]. rewrite cget_set, Nat.eqb_refl, K'. reflexivity.
      + set (c1 := set_w D c (snd x) (CW (Some (S (S n) - 1)) (cw_flag (cget D c (snd x))) (cw_src (cget D c (snd x))))).
        assert (G : cget D c1 (snd x) = CW (Some (S n)) false (cw_src (cget D c (snd x)))).
        { unfold c1. rewrite cget_set, Nat.eqb_refl, K'. cbn [andb]. now rewrite FL. }
        specialize (IH c1 (snd x) m FO'). rewrite G in IH. cbn [cw_flag cw_cnt cw_src] in IH.
        assert (LL : length (c_w D c1) = length (c_w D c)) by (unfold c1, set_w; cbn; apply cset_length).
        specialize (IH ltac:(lia) eq_refl ltac:(now rewrite LM)).
        destruct (releases D c1 l) as [c2 l2]. cbn [fst] in *. destruct m; auto. intros _. apply IH. intros ->. cbn in LM. lia.
  Qed.
  Lemma filter_part : forall {X} (f : X -> bool) l, length l = length (filter f l) + length (filter (fun x => negb (f x)) l).
  Proof. induction l as [|x l IH]; cbn; auto. destruct (f x); cbn; lia. Qed.
  Lemma Forall_filter : forall {X} (Q : X -> Prop) f l, Forall Q l -> Forall Q (filter f l).
  Proof. intros X Q f l H. apply Forall_forall. intros x Hx. apply filter_In in Hx as (Hx & _). now apply (proj1 (Forall_forall _ _) H). Qed.
  Lemma settle_R : forall c cur, P c cur -> R c ->
    let c' := fst (settle D c) in
    R c' /\ c_own D c' = filter (fun x => negb (off D c x)) (c_own D c) /\
    match c_ref D c with
    | Some k => c_own D c' <> [] -> cw_flag (cget D c' k) = false /\ cw_src (cget D c' k) = cw_src (cget D c k)
    | None => True
    end.
  Proof.
    intros c cur PC RC. destruct (settle_drops c cur PC) as ((G & C & RE & LN) & _). unfold settle in *.
    destruct (c_ref D c) as [k|] eqn:CR.
    - red in RC. rewrite CR in RC. destruct RC as (K & RC). 
      destruct (cw_flag (cget D c k)) eqn:FL.
      + rewrite RC in *. cbn [filter releases fst snd] in *. split; [|split; [reflexivity|intros X; now destruct X]].
        red. cbn [set_own c_ref c_own c_w]. rewrite CR. split; auto. change (cget D (set_own D c []) k) with (cget D c k). now rewrite FL.
      + destruct RC as (NE & CN & FO).
        pose proof (releases_cnt (filter (off D c) (c_own D c)) c k (length (filter (fun x => negb (off D c x)) (c_own D c))) (Forall_filter _ _ _ FO) K FL) as RL.
        rewrite <- filter_part in RL. specialize (RL CN).
        destruct (releases D c (filter (off D c) (c_own D c))) as [c1 l1]. cbn [fst snd] in *. cbn [set_own c_ref c_own c_w c_g c_cur] in *.
        set (alive := filter (fun x => negb (off D c x)) (c_own D c)) in *.
        destruct alive as [|x alive'] eqn:AL; cbn [length] in RL.
        * split; [|split; auto; intro X; now destruct X].
          red. cbn [set_own c_ref c_own c_w]. rewrite RE. split; [lia|]. change (cget D (set_own D c1 []) k) with (cget D c1 k).
          rewrite RL; auto. intro Z. apply NE. pose proof (filter_part (off D c) (c_own D c)) as FP. fold alive in FP. rewrite Z, AL in FP. cbn in FP. now destruct (c_own D c).
        * destruct RL as (R1 & R2 & R3). split; [|split; auto].
          red. cbn [set_own c_ref c_own c_w]. rewrite RE. split; [lia|]. change (cget D (set_own D c1 (x :: alive')) k) with (cget D c1 k).
          rewrite R1. split; [discriminate|]. split; auto. rewrite <- AL. now apply Forall_filter.
    - red in RC. rewrite CR in RC. rewrite RC in *. cbn [filter releases fst snd] in *. split; auto. red. cbn [set_own c_ref c_own]. now rewrite CR.
  Qed.

  Definition link (c : cn) (cur : option nat) : Prop :=
    match c_ref D c with Some k => if cw_flag (cget D c k) then cur = None else cur = Some k | None => cur = None end.
  Definition live (c : cn) (i : nat) : Prop := mdisp D (s_sub D (c_g D c) i) = false.
  Record counts (c : cn) (cur : option nat) (on : nat -> bool) (T : list nat) : Prop := MkC {
    n_R : R c;
    n_link : link c cur;
    n_own : forall x, In x (c_own D c) -> live c (fst x) /\ on (fst x) = true /\ In (fst x) T;
    n_all : forall i, In i T -> live c i -> In i (map fst (c_own D c))
  }.
  Lemma link_cur : forall c cur, R c -> link c cur -> (cur = None <-> c_own D c = []).
  Proof.
    intros c cur RC LK. unfold R, link in *. destruct (c_ref D c) as [k|]; [|tauto]. destruct RC as (_ & RC).
    destruct (cw_flag (cget D c k)); [tauto|]. destruct RC as (NE & _). split; [congruence|contradiction].
  Qed.
  Lemma in_alive : forall (c c' : cn) i, c_g D c' = c_g D c -> live c i -> In i (map fst (c_own D c)) ->
    c_own D c' = filter (fun x => negb (off D c x)) (c_own D c) -> In i (map fst (c_own D c')).
  Proof.
    intros c c' i G LV H E. rewrite E. apply in_map_iff in H as (x & <- & X). apply in_map_iff. exists x. split; auto.
    apply filter_In. split; auto. unfold off. unfold live in LV. now rewrite LV.
  Qed.
  Lemma settle_link : forall c cur, P c cur -> R c -> link c cur ->
    link (fst (settle D c)) (fold_left force1 (snd (settle D c)) cur).
  Proof.
    intros c1 cur P1 R1 LK.
    destruct (settle_R c1 cur P1 R1) as (R2 & O2 & F2). pose proof (settle_drops c1 cur P1) as D2.
    destruct (drops_force _ _ _ D2) as (_ & P2 & _). pose proof D2 as ((G2 & C2 & RE2 & LN2) & _).
    destruct (settle D c1) as [c2 l2]. cbn [fst snd] in *.
    unfold link. rewrite RE2. unfold link in LK. red in R2. rewrite RE2 in R2.
    destruct (c_ref D c1) as [k|] eqn:CR.
    - destruct (cw_flag (cget D c2 k)) eqn:FK.
      + destruct (fold_left force1 l2 cur) as [j|] eqn:CU; auto. exfalso.
        apply (drops_le _ _ _ _ D2) in CU as CU'. destruct (p_flag _ _ P2 j eq_refl) as (X & _).
        destruct (cw_flag (cget D c1 k)); congruence.
      + destruct R2 as (_ & NE & _). destruct (F2 NE) as (_ & SR).
        assert (CU : cur = Some k).
        { destruct (cw_flag (cget D c1 k)) eqn:FK0; auto. red in R1. rewrite CR, FK0 in R1. destruct R1 as (_ & RC). destruct NE. rewrite O2. now rewrite RC. }
        apply (p_src _ _ P2). rewrite SR. now apply (p_src _ _ P1).
    - destruct (fold_left force1 l2 cur) as [j|] eqn:CU; auto. apply (drops_le _ _ _ _ D2) in CU. congruence.
  Qed.
  (** Settling after an event or an unsubscription. *)
  Lemma settle_counts : forall c0 g cur on on' T, P c0 cur -> counts c0 cur on T ->
    (forall j, on j = true -> on' j = true) ->
    (forall j, mdisp D (s_sub D (c_g D c0) j) = true -> mdisp D (s_sub D g j) = true) ->
    let x := settle D (set_g D c0 g) in
    counts (fst x) (fold_left force1 (snd x) cur) on' T.
  Proof.
    intros c0 g cur on on' T PC [RC LK OW AL] ONN MO. set (c1 := set_g D c0 g). cbn zeta.
    assert (P1 : P c1 cur) by (now apply set_g_P). assert (R1 : R c1) by exact RC.
    destruct (settle_R c1 cur P1 R1) as (R2 & O2 & F2). pose proof (settle_drops c1 cur P1) as D2.
    pose proof (settle_link c1 cur P1 R1 LK) as LK2. pose proof D2 as ((G2 & C2 & RE2 & LN2) & _).
    destruct (settle D c1) as [c2 l2]. cbn [fst snd] in *.
    split; auto.
    - intros x X. rewrite O2 in X. apply filter_In in X as (X & LV). destruct (OW x X) as (_ & O & I). split; [|auto].
      unfold live. rewrite G2. unfold off in LV. destruct (mdisp D (s_sub D (c_g D c1) (fst x))); auto; discriminate.
    - intros i I LV. unfold live in LV. rewrite G2 in LV. eapply in_alive; eauto. apply AL; auto. unfold live.
      destruct (mdisp D (s_sub D (c_g D c0) i)) eqn:Z; auto. apply MO in Z. change (c_g D c1) with g in LV. congruence.
  Qed.

  Lemma counts_up : forall c cur on on' T, (forall j, on j = true -> on' j = true) -> counts c cur on T -> counts c cur on' T.
  Proof. intros c cur on on' T H [RC LK OW AL]. split; auto. intros x X. destruct (OW x X) as (? & ? & ?). auto. Qed.

  Lemma hop_count : forall o c cur f on T c' ls f' on', base c cur f on -> counts c cur on T -> 
    match o with HSub _ | HConnect | HCut _ => False | HRef i => on i = false /\ ~ In i T | _ => True end ->
    hop_step D c o = Some (c', ls) -> base c' (fold_left force1 ls cur) f' on' -> grows c c' on on' o ->
    counts c' (fold_left force1 ls cur) on' (T ++ hsubs [o]).
  Proof.
    intros o c cur f on T c' ls f' on' B NC OK E B' GR. destruct B as (PC & I & ND & CF). destruct o as [i|i|i| |k|k e]; try contradiction; cbn [hop_step] in E.
    - (* HRef *)
      destruct OK as (ONI & NIT). destruct GR as (GR1 & GR2 & GR3). cbn [hsubs flat_map app].
      pose proof (acquire_P c cur i PC) as (P1 & G1 & _). pose proof NC as [RC LK OW AL].
      assert (A : exists k, c_ref D (fst (acquire D c i)) = Some k /\ c_own D (fst (acquire D c i)) = c_own D c ++ [(i, k)] /\
        cw_flag (cget D (fst (acquire D c i)) k) = false /\ R (fst (acquire D c i)) /\
        (snd (acquire D c i) = None /\ link (fst (acquire D c i)) cur \/ snd (acquire D c i) = Some k /\ c_own D c = [] /\ cur = None)).
      { unfold acquire. destruct (down D c (c_ref D c)) eqn:DN; cbn [negb].
        - assert (c_own D c = []).
          { unfold R in RC. destruct (c_ref D c) as [k|]; auto. cbn [down] in DN. rewrite DN in RC. tauto. }
          assert (cur = None) by (now apply (link_cur c)).
          destruct (fresh_P c cur 1 PC) as (_ & W & _). exists (length (c_w D c)). cbn [fst snd c_ref c_own c_g c_w c_cur fresh].
          set (c1 := CN D (c_g D c) (c_w D c ++ [CW (Some 1) false false]) (c_cur D c) (Some (length (c_w D c))) (c_own D c ++ [(i, length (c_w D c))])).
          assert (W1 : cget D c1 (length (c_w D c)) = CW (Some 1) false false) by exact W.
          rewrite W1. split; auto. split; auto. split; auto. split; auto.
          red. cbn [c1 c_ref c_own c_w]. split; [rewrite app_length; cbn; lia|]. fold c1. rewrite W1. cbn [cw_flag cw_cnt]. rewrite H. cbn.
          split; [discriminate|]. split; auto.
        - destruct (c_ref D c) as [k|] eqn:CR; [|discriminate]. cbn [down] in DN. red in RC. rewrite CR, DN in RC. destruct RC as (K & NE & CNT & FO). rewrite CNT. cbn [fst snd].
          exists k. cbn [set_own set_w c_ref c_own].
          set (c1 := set_own D (set_w D c k (CW (Some (S (length (c_own D c)))) (cw_flag (cget D c k)) (cw_src (cget D c k)))) (c_own D c ++ [(i, k)])).
          apply Nat.ltb_lt in K as K'.
          assert (W1 : cget D c1 k = CW (Some (S (length (c_own D c)))) false (cw_src (cget D c k))).
          { change (cget D c1 k) with (cget D (set_w D c k (CW (Some (S (length (c_own D c)))) (cw_flag (cget D c k)) (cw_src (cget D c k)))) k). rewrite cget_set, Nat.eqb_refl, K'. cbn [andb]. now rewrite DN. }
          rewrite W1. split; auto. split; auto. split; auto. split.
          + red. cbn [c1 set_own set_w c_ref c_own c_w]. rewrite CR. split; [rewrite cset_length; auto|]. fold c1.
            change (cget D (set_own D (set_w D c k (CW (Some (S (length (c_own D c)))) (cw_flag (cget D c k)) (cw_src (cget D c k)))) (c_own D c ++ [(i, k)])) k) with (cget D c1 k). rewrite W1. cbn [cw_flag cw_cnt].
            rewrite app_length. cbn [length]. split; [destruct (c_own D c); discriminate|]. split; [f_equal; lia|]. apply Forall_app. auto.
          + left. split; auto. unfold link in *. cbn [c1 set_own set_w c_ref]. rewrite CR in *. change (cget D (set_own D (set_w D c k (CW (Some (S (length (c_own D c)))) (cw_flag (cget D c k)) (cw_src (cget D c k)))) (c_own D c ++ [(i, k)])) k) with (cget D c1 k). rewrite W1. now rewrite DN in LK. }
      destruct A as (k & A1 & A2 & A3 & A4 & A5). destruct (acquire D c i) as [c1 up]. cbn [fst snd] in *.
      pose proof (settle_R c1 cur P1 A4) as (R2 & O2 & _). pose proof (settle_drops c1 cur P1) as D2.
      assert (LK2 : link c1 cur -> link (fst (settle D c1)) (fold_left force1 (snd (settle D c1)) cur)) by (now apply settle_link).
      destruct (drops_force _ _ _ D2) as (_ & P2 & _). pose proof D2 as ((G2 & C2 & RE2 & LN2) & _).
      destruct (settle D c1) as [c2 l2]. cbn [fst snd] in *.
      set (c2' := set_g D c2 (on_subscribe D (c_g D c2) i)) in *.
      assert (P2' : P c2' (fold_left force1 l2 cur)) by (now apply set_g_P). assert (R2' : R c2') by exact R2.
      pose proof (settle_R c2' _ P2' R2') as (R3 & O3 & _). pose proof (settle_drops c2' _ P2') as D3.
      assert (LK3 : link c2' (fold_left force1 l2 cur) -> link (fst (settle D c2')) (fold_left force1 (snd (settle D c2')) (fold_left force1 l2 cur))) by (now apply settle_link).
      destruct (drops_force _ _ _ D3) as (_ & P3 & _). pose proof D3 as ((G3 & C3 & RE3 & LN3) & _).
      destruct (settle D c2') as [c3 l3]. cbn [fst snd] in *.
      change (c_g D c2') with (on_subscribe D (c_g D c2) i) in G3. rewrite G2, G1 in G3. change (c_own D c2') with (c_own D c2) in O3.
      assert (GC : c_g D c' = c_g D c3).
      { destruct up as [j|]; [destruct (cw_flag (cget D c3 j))|]; try (inversion E; subst; reflexivity).
        destruct (connect D c3 j) as [c4 l4] eqn:CO. inversion E; subst.
        unfold connect in CO. repeat match type of CO with context [if ?b then _ else _] => destruct b end; inversion CO; reflexivity. }
      rewrite GC, G3 in GR2, GR3.
      (* who holds a reference afterwards *)
      assert (HO : forall x, In x (c_own D c3) -> live c3 (fst x) /\ on' (fst x) = true /\ In (fst x) (T ++ [i])).
      { intros x X. rewrite O3 in X. apply filter_In in X as (X & LV). rewrite O2 in X. apply filter_In in X as (X & _). rewrite A2 in X.
        assert (LX : live c3 (fst x)).
        { unfold live. rewrite G3. unfold off in LV. change (c_g D c2') with (on_subscribe D (c_g D c2) i) in LV. rewrite G2, G1 in LV. now apply negb_true_iff in LV. }
        split; auto. apply in_app_iff in X as [X|[<-|[]]].
        - destruct (OW x X) as (_ & O & IT). split; auto. apply in_app_iff. auto.
        - cbn [fst] in *. split; [|apply in_app_iff; right; now left]. destruct GR3 as [Z|Z]; auto. unfold live in LX. rewrite G3 in LX. congruence. }
      assert (HA : forall j, In j (T ++ [i]) -> live c3 j -> In j (map fst (c_own D c3))).
      { intros j J LV. unfold live in LV. rewrite G3 in LV.
        assert (LG : mdisp D (s_sub D (c_g D c) j) = false) by (destruct (mdisp D (s_sub D (c_g D c) j)) eqn:Z; auto; apply GR2 in Z; congruence).
        assert (I1 : In j (map fst (c_own D c1))).
        { rewrite A2, map_app. apply in_app_iff in J as [J|[<-|[]]]; apply in_app_iff; [left; apply AL; auto|right; now left]. }
        apply (in_alive c2' c3); [now rewrite G3; cbn; rewrite G2, G1|unfold live; cbn; now rewrite G2, G1| |exact O3].
        apply (in_alive c1 c2); auto. unfold live. now rewrite G1. }
      destruct A5 as [(-> & LK1)|(-> & OE & ->)].
      + inversion E; subst c' ls. rewrite force_app. split; auto.
      + assert (l2 = []) by (destruct D2 as (_ & [(Z & _)|(j & Z & _)]); [exact Z|discriminate]). subst l2. cbn [fold_left] in *.
        assert (l3 = []) by (destruct D3 as (_ & [(Z & _)|(j & Z & _)]); [exact Z|discriminate]). subst l3. cbn [fold_left app] in *.
        assert (CR3 : c_ref D c3 = Some k) by (rewrite RE3; cbn; now rewrite RE2).
        destruct (cw_flag (cget D c3 k)) eqn:FK.
        * inversion E; subst c' ls. split; auto. unfold link. now rewrite CR3, FK.
        * pose proof R3 as R3'. red in R3'. rewrite CR3, FK in R3'. destruct R3' as (K3 & NE3 & CN3 & FO3).
          destruct (c_own D c3) as [|x r] eqn:OC; [congruence|].
          assert (XI : fst x = i).
          { assert (X : In x (c_own D c3)) by (rewrite OC; now left). rewrite <- OC in O3. rewrite O3 in X. apply filter_In in X as (X & _). rewrite O2 in X. apply filter_In in X as (X & _).
            rewrite A2, OE in X. destruct X as [<-|[]]. reflexivity. }
          destruct (HO x) as (LX & _ & _); [now left|]. rewrite XI in LX. unfold live in LX. rewrite G3 in LX.
          assert (SF : s_flag D (c_g D c3) = false).
          { rewrite G3, subscribe_flag. rewrite (i_flag _ _ _ _ I). destruct f as [|y|] eqn:FE; auto; [|congruence].
            destruct (subscribe_over D L (Ended y) on _ i I) as (_ & SU); [discriminate|]. rewrite SU, Nat.eqb_refl in LX.
            rewrite (law_term _ L) in LX; [discriminate|]. pose proof (i_st _ _ _ _ I) as ST. destruct y; auto; destruct (s_st D (c_g D c)); contradiction. }
          assert (DN : down D c3 (c_cur D c3) = true).
          { destruct (c_cur D c3) as [j|] eqn:CC; auto. cbn. destruct (p_down _ _ P3 j CC) as ([Z|Z] & _); auto. discriminate. }
          unfold connect in E. rewrite SF, DN in E. cbn [negb] in E.
          set (c4 := CN D (c_g D c3) (c_w D c3) (Some k) (c_ref D c3) (c_own D c3)) in E.
          assert (G4 : cget D c4 k = cget D c3 k) by reflexivity. rewrite G4, FK in E. inversion E; subst c' ls. cbn [fold_left force1].
          apply Nat.ltb_lt in K3 as K3'.
          assert (W : cget D (set_w D c4 k (CW (cw_cnt (cget D c3 k)) false true)) k = CW (cw_cnt (cget D c3 k)) false true).
          { rewrite cget_set, Nat.eqb_refl. cbn [c4 c_w]. now rewrite K3'. }
          split.
          -- red. cbn [set_w c_ref c4 c_w c_own]. fold c4. rewrite CR3. split; [rewrite cset_length; exact K3|].
             change (cget D _ k) with (cget D (set_w D c4 k (CW (cw_cnt (cget D c3 k)) false true)) k). rewrite W. cbn [cw_flag cw_cnt]. rewrite OC. auto.
          -- unfold link. cbn [set_w c_ref c4]. fold c4. rewrite CR3. change (cget D _ k) with (cget D (set_w D c4 k (CW (cw_cnt (cget D c3 k)) false true)) k). now rewrite W.
          -- intros y Y. cbn [set_w c_own c4] in Y. rewrite OC in Y. apply HO in Y. exact Y.
          -- intros j J LV. cbn [set_w c_own c4]. rewrite OC. apply HA; auto.
    - (* HUnsub *)
      destruct GR as (GR1 & GR2 & GR3). cbn [hsubs flat_map]. rewrite app_nil_r.
      inversion E as [E']. pose proof (settle_counts c (unsubscribe D (c_g D c) i) cur on on' T PC NC GR1) as SC. cbn zeta in SC.
      assert (G : c_g D c' = unsubscribe D (c_g D c) i).
      { destruct (settle_drops (set_g D c (unsubscribe D (c_g D c) i)) cur (set_g_P _ _ _ PC)) as ((G & _) & _). rewrite E' in G. exact G. }
      rewrite E' in SC. apply SC. intros j H. rewrite <- G. auto.
    - (* HSrc *)
      destruct GR as (GR1 & GR2 & GR3). cbn [hsubs flat_map]. rewrite app_nil_r.
      destruct (cw_src (cget D c k)) eqn:SR; cbn [andb] in E; [|inversion E; subst; now apply (counts_up _ _ on)].
      apply (p_src _ _ PC) in SR as EE. subst cur. destruct (p_flag _ _ PC k eq_refl) as (FL & _). rewrite FL in E. cbn [negb] in E.
      destruct (emit D (fun _ _ => []) (c_g D c) e) as [g|]; [|discriminate].
      assert (P1 : P (set_g D c g) (Some k)) by (now apply set_g_P).
      pose proof (settle_drops _ _ P1) as D2. pose proof (settle_counts c g (Some k) on on' T PC NC GR1) as SC. cbn zeta in SC.
      pose proof (settle_R (set_g D c g) (Some k) P1 (n_R _ _ _ _ NC)) as (R2 & O2 & _).
      destruct (drops_force _ _ _ D2) as (_ & P2 & _). pose proof D2 as ((G2 & C2 & RE2 & LN2) & _).
      destruct (settle D (set_g D c g)) as [c2 l2]. cbn [fst snd] in *. change (c_g D (set_g D c g)) with g in G2.
      assert (Gc' : c_g D c' = g) by (rewrite <- G2; destruct (is_term e); unfold cut in E; inversion E; reflexivity).
      rewrite Gc' in GR2, GR3. specialize (SC GR2).
      destruct (is_term e) eqn:T'; [|inversion E; subst c' ls; rewrite app_nil_r in *; exact SC].
      destruct SC as [RC LK OW AL].
      assert (ON0 : c_own D c2 = []).
      { destruct (c_own D c2) as [|x l] eqn:Z; auto. exfalso. destruct (OW x) as (LV & _ & _); [now left|].
        assert (X : In x (x :: l)) by now left. rewrite O2 in X. apply filter_In in X as (X & _).
        destruct (n_own _ _ _ _ NC x X) as (_ & O & _). unfold live in LV. rewrite G2, GR3 in LV; auto. discriminate. }
      assert (CU : fold_left force1 l2 (Some k) = None) by (now apply (link_cur c2)).
      assert (SR2 : cw_src (cget D c2 k) = false).
      { destruct (cw_src (cget D c2 k)) eqn:Z; auto. apply (p_src _ _ P2) in Z. congruence. }
      unfold cut in E. rewrite SR2 in E. inversion E; subst c' ls. rewrite app_nil_r. cbn [fold_left force1]. rewrite CU.
      assert (FG : forall j, cw_flag (cget D c2 j) = true -> cw_flag (cget D (set_w D c2 k (CW None true false)) j) = true).
      { intros j Z. rewrite cget_set. destruct (_ && _); auto. }
      assert (FR : forall j, c_ref D c2 = Some j -> cw_flag (cget D c2 j) = true).
      { intros j Z. red in RC. rewrite Z in RC. destruct RC as (_ & RC). destruct (cw_flag (cget D c2 j)); auto. destruct RC. congruence. }
      split.
      + unfold R in *. cbn [set_w c_ref c_own c_w]. destruct (c_ref D c2) as [j|] eqn:CR; auto. destruct RC as (K & _). split; [rewrite cset_length; auto|].
        rewrite (FG j (FR j eq_refl)). auto.
      + unfold link. cbn [set_w c_ref]. destruct (c_ref D c2) as [j|] eqn:CR; auto. now rewrite (FG j (FR j eq_refl)).
      + cbn [set_w c_own]. rewrite ON0. intros x [].
      + intros i Hi LV. cbn [set_w c_own]. apply AL; auto.
  Qed.

  Lemma hop_run_count : forall h c cur f on T c' r, base c cur f on -> counts c cur on T -> counted h -> NoDup (hsubs h) ->
    (forall i, In i (hsubs h) -> on i = false /\ ~ In i T) -> hop_run D c h = Some (c', r) ->
    exists f' on', base c' (in_force cur r) f' on' /\ counts c' (in_force cur r) on' (T ++ hsubs h).
  Proof.
    induction h as [|o h IH]; intros c cur f on T c' r B NC CH ND ON RR; cbn [hop_run] in RR.
    - inversion RR; subst. exists f, on. cbn. rewrite app_nil_r. auto.
    - destruct (hop_ok o c cur f on B) as (c1 & ls & f1 & on1 & R1 & B1 & K1 & Q1 & O1 & GR).
      { destruct o; auto; apply ON; now left. }
      rewrite R1 in RR. destruct (hop_run D c1 h) as [[c2 r2]|] eqn:R2; inversion RR; subst. inversion CH; subst.
      assert (NC1 : counts c1 (fold_left force1 ls cur) on1 (T ++ hsubs [o])).
      { eapply hop_count; eauto. destruct o; auto. apply ON. now left. }
      destruct (IH c1 _ f1 on1 _ c' r2 B1 NC1) as (f' & on' & B' & N'); auto.
      + destruct o; cbn in ND; auto; now inversion ND.
      + intros i Hi. split.
        * destruct (on1 i) eqn:Z; auto. destruct (O1 i Z) as [X|[X|X]].
          -- destruct (ON i) as (Y & _); [|congruence]. destruct o; cbn; auto.
          -- subst o. cbn in ND. inversion ND. contradiction.
          -- subst o. cbn in ND. inversion ND. contradiction.
        * intro X. apply in_app_iff in X as [X|X]; [apply (ON i); auto; destruct o; cbn; auto|].
          destruct o; cbn in X, ND; try contradiction; destruct X as [<-|[]]; inversion ND; contradiction.
      + exists f', on'. unfold in_force in *. cbn [flat_map snd]. rewrite fold_left_app. split; auto.
        rewrite <- app_assoc in N'. replace (hsubs (o :: h)) with (hsubs [o] ++ hsubs h); auto. destruct o; reflexivity.
  Qed.
  Lemma counts_init : forall d0, counts (cn_init D d0) None (fun _ => false) [].
  Proof. intro d0. split; cbn; auto; try (intros ? []); reflexivity. Qed.
End ConnP.
