(** The queue as a ring of sources. *)
From Coq Require Import Sorted.
From Verif Require Import Base SchedSpec SchedModel FairSpec FairModel.
Open Scope nat_scope.

Lemma runs_app : forall a b i, runs (a ++ b) i = runs a i + runs b i.
Proof. intros. unfold runs. now rewrite filter_app, app_length. Qed.
Lemma starts_app : forall a b, starts (a ++ b) = starts a ++ starts b.
Proof. intros. apply flat_map_app. Qed.
Lemma disp_app : forall a b h, disposed_before a h -> disposed_before (a ++ b) h.
Proof. intros a b h (t & [H|H]); exists t; [left|right]; apply in_or_app; auto. Qed.

Section P.
  Variable lens : list nat.
  Notation k := (length lens).
  Notation need i := (needs (nth i lens 0)).
  Definition fk : nat -> skind := fun _ => KNow.
  Variable onerr : nat -> list act.
  Notation sexec := (sexec fk (from_beh lens) onerr).
  Notation sstep := (sstep fk (from_beh lens) onerr).

  (** (source, finished runs) *)
  Definition item2 := (nat * nat)%type.
  Definition before (x y : item2) : Prop := (snd x = snd y /\ fst x < fst y) \/ (snd y = S (snd x) /\ fst y < fst x).
  Definition key (e : entry) : item2 := (e_id e, e_runs e).

  (** Facts about the ring, m sources having been subscribed. *)
  Record ringok (m : nat) (tr : list tev) (ring : list item2) : Prop := RingOk {
    r_lt : Forall (fun x => fst x < m) ring;
    r_runs : Forall (fun x => snd x = runs tr (fst x) /\ snd x < need (fst x)) ring;
    r_sort : StronglySorted before ring;
    r_rest : forall i, i < m -> ~ In i (map fst ring) -> disposed_before tr i \/ runs tr i = need i;
    r_fair : forall i x, In x ring -> runs tr i <= snd x + (if i <? fst x then 1 else 0);
    r_max : forall i, runs tr i <= (if i <? m then need i else 0)
  }.
  Definition entok (e : entry) : Prop := e_h e = e_id e /\ e_code e = e_id e.
  Record stok (tr : list tev) (s : state) (q : list entry) : Prop := StOk {
    t_queue : s_queue s = Some q;
    t_ent : Forall entok q;
    t_tp : Forall (fun e => (e_tp e <= s_clock s)%Z) q
  }.
  Definition deadok (tr : list tev) (s : state) : Prop := forall h, is_dead s h = true -> disposed_before tr h.

  (** Who runs next, and in which order the ring is used up when nobody disposes. *)
  Inductive drains : list item2 -> list nat -> Prop :=
  | DNil : drains [] []
  | DCons : forall i r q out, drains (if S r <? need i then q ++ [(i, S r)] else q) out -> drains ((i, r) :: q) (i :: out).
  Definition quiet (tr : list tev) : Prop := forall i, ~ disposed_before tr i.
  Definition ordered (tr : list tev) (ring : list item2) : Prop :=
    quiet tr -> forall out, drains ring out -> drains (map (fun i => (i, 0)) (seq 0 k)) (starts tr ++ out).

  Inductive phase (tr : list tev) : state -> list item -> list item2 -> Prop :=
  | F0 : forall s, s_queue s = None -> s_next s = 0 -> ringok 0 tr [] -> phase tr s (map IAct (subscribe_all lens)) (map (fun i => (i, 0)) (seq 0 k))
  | F1 : forall s m q, m <= k -> s_next s = m -> stok tr s q -> ringok m tr (map key q) -> (forall i, runs tr i = 0) ->
      phase tr s (map IAct (map (fun i => ASched CT 0%Z i i) (seq m (k - m))) ++ [IGuardEnd true]) (map key q ++ map (fun i => (i, 0)) (seq m (k - m)))
  | F2 : forall s q, stok tr s q -> ringok k tr (map key q) -> phase tr s [IDrain] (map key q)
  | F3 : forall s q e, stok tr s q -> entok e -> ringok k tr (map key (e :: q)) -> phase tr s [ITopSleep e; IDrain] (map key (e :: q))
  | F4 : forall s q e, stok tr s q -> entok e -> ringok k tr (map key (e :: q)) -> phase tr s [ITopRun e; IDrain] (map key (e :: q))
  | F5 : forall s q e, stok tr s q -> entok e -> ringok k tr (map key q) -> phase tr s [ITopRet e RStop; IDrain] (map key q)
  | F6 : forall s q e, stok tr s q -> entok e -> ringok k tr (map key (q ++ [again e])) -> phase tr s [ITopRet e (RAgain 0%Z); IDrain] (map key (q ++ [again e]))
  | F7 : forall s q e, stok tr s q -> entok e -> ringok k tr (map key (q ++ [e])) -> phase tr s [ITopRes e 0%Z; IDrain] (map key (q ++ [e]))
  | F8 : forall s, s_queue s = None -> ringok k tr [] -> phase tr s [] [].

  (** Events that neither start a task nor dispose. *)
  Lemma ringok_mono : forall m tr ls ring, (forall i, runs ls i = 0) -> ringok m tr ring -> ringok m (tr ++ ls) ring.
  Proof.
    intros m tr ls ring Z [A1 A2 A3 A4 A5 A6].
    assert (R : forall i, runs (tr ++ ls) i = runs tr i) by (intro i; rewrite runs_app, Z; lia).
    constructor; auto.
    - eapply Forall_impl; [|exact A2]. cbn. intros x (H1 & H2). rewrite R. auto.
    - intros i H1 H2. rewrite R. destruct (A4 i H1 H2); auto. left. now apply disp_app.
    - intros i x H. rewrite R. auto.
    - intro i. rewrite R. auto.
  Qed.
  Lemma ringok_drop : forall m tr ls x ring, (forall i, runs ls i = 0) -> disposed_before tr (fst x) -> ringok m tr (x :: ring) -> ringok m (tr ++ ls) ring.
  Proof.
    intros m tr ls x ring Z D R. apply ringok_mono; auto. destruct R as [A1 A2 A3 A4 A5 A6]. constructor.
    - now inversion A1.
    - now inversion A2.
    - now inversion A3.
    - intros i H1 H2. destruct (Nat.eq_dec i (fst x)) as [->|NE]; auto. apply A4; auto. cbn. intros [E|E]; auto.
    - intros i y H. apply A5. now right.
    - auto.
  Qed.
  Lemma ringok_drop_last : forall m tr ls x ring, (forall i, runs ls i = 0) -> disposed_before tr (fst x) -> ringok m tr (ring ++ [x]) -> ringok m (tr ++ ls) ring.
  Proof.
    intros m tr ls x ring Z D R. apply ringok_mono; auto. destruct R as [A1 A2 A3 A4 A5 A6]. constructor.
    - apply Forall_app in A1. apply A1.
    - apply Forall_app in A2. apply A2.
    - clear -A3. induction ring as [|y r IH]; [constructor|]. cbn in A3. inversion A3; subst. constructor; auto. apply Forall_app in H2. apply H2.
    - intros i H1 H2. destruct (Nat.eq_dec i (fst x)) as [->|NE]; auto. apply A4; auto. rewrite map_app. intro H. apply in_app_or in H. cbn in H. destruct H as [H|[H|[]]]; auto.
    - intros i y H. apply A5. apply in_or_app. now left.
    - auto.
  Qed.
  Lemma sorted_snoc : forall l x, StronglySorted before l -> Forall (fun y => before y x) l -> StronglySorted before (l ++ [x]).
  Proof.
    induction l as [|y l IH]; intros x S F; cbn; [repeat constructor|]. inversion S; subst. inversion F; subst. constructor; auto.
    apply Forall_app. split; auto.
  Qed.
  (** The head of the ring is started. *)
  Lemma ringok_start : forall tr t i r q, ringok k tr ((i, r) :: q) ->
    let tr' := tr ++ [(t, EStart CT i)] in
    if S r <? need i then ringok k tr' (q ++ [(i, S r)]) else ringok k tr' q.
  Proof.
    intros tr t i r q [A1 A2 A3 A4 A5 A6] tr'.
    assert (Ri : runs tr i = r) by (inversion A2; cbn in *; subst; intuition).
    assert (Li : i < k) by (inversion A1; auto).
    assert (Ni : r < need i) by (inversion A2; cbn in *; intuition).
    assert (R : forall j, runs tr' j = runs tr j + (if i =? j then 1 else 0)).
    { intro j. unfold tr'. rewrite runs_app. f_equal. unfold runs. cbn. destruct (i =? j); reflexivity. }
    assert (NI : ~ In i (map fst q)).
    { inversion A3 as [|? ? _ F]; subst. rewrite Forall_forall in F. intro H. apply in_map_iff in H. destruct H as (y & E & Y). specialize (F y Y).
      unfold before in F. cbn in F. subst i. lia. }
    assert (Fq : Forall (fun y => snd y = runs tr' (fst y) /\ snd y < need (fst y)) q).
    { inversion A2 as [|? ? _ F]; subst. rewrite Forall_forall in *. intros y Y. specialize (F y Y). rewrite R.
      destruct (Nat.eqb_spec i (fst y)) as [E|E]; [exfalso; apply NI; rewrite E; now apply in_map|]. rewrite Nat.add_0_r. auto. }
    assert (FAIR : forall j y, In y q -> runs tr' j <= snd y + (if j <? fst y then 1 else 0)).
    { intros j y Y. rewrite R. pose proof (A5 j y (or_intror Y)) as B. destruct (Nat.eqb_spec i j) as [E|E]; [|lia]. subst j.
      inversion A3 as [|? ? _ F]; subst. rewrite Forall_forall in F. specialize (F y Y). unfold before in F. cbn in F.
      destruct (Nat.ltb_spec i (fst y)); lia. }
    assert (MAX : forall j, runs tr' j <= (if j <? k then need j else 0)).
    { intro j. rewrite R. specialize (A6 j). destruct (Nat.eqb_spec i j) as [E|E]; [subst j|lia]. destruct (Nat.ltb_spec i k); lia. }
    destruct (Nat.ltb_spec (S r) (need i)) as [LT|GE].
    - constructor; auto.
      + apply Forall_app. split; [now inversion A1|]. constructor; auto.
      + apply Forall_app. split; auto. constructor; auto. cbn [fst snd]. rewrite R, Nat.eqb_refl. lia.
      + inversion A3 as [|? ? S F]; subst. apply sorted_snoc; auto. eapply Forall_impl; [|exact F]. unfold before. cbn. intros y. lia.
      + intros j H1 H2. rewrite map_app in H2. rewrite R. destruct (Nat.eqb_spec i j) as [E|E].
        * subst j. exfalso. apply H2. apply in_or_app. right. now left.
        * rewrite Nat.add_0_r. destruct (A4 j H1) as [D|D]; auto.
          -- cbn. intros [X|X]; auto. apply H2. apply in_or_app. now left.
          -- left. now apply disp_app.
      + intros j y H. apply in_app_or in H. destruct H as [H|[<-|[]]]; auto. cbn [fst snd]. rewrite R.
        pose proof (A5 j (i, r) (or_introl eq_refl)) as B. cbn [fst snd] in B. destruct (Nat.eqb_spec i j) as [E|E], (Nat.ltb_spec j i); lia.
    - assert (RN : S r = need i) by lia. constructor; auto.
      + now inversion A1.
      + now inversion A3.
      + intros j H1 H2. rewrite R. destruct (Nat.eqb_spec i j) as [E|E].
        * subst j. right. lia.
        * rewrite Nat.add_0_r. destruct (A4 j H1) as [D|D]; auto.
          -- cbn. intros [X|X]; auto.
          -- left. now apply disp_app.
  Qed.

  Lemma q_ins_end : forall e q, Forall (fun x => (e_tp x <= e_tp e)%Z) q -> q_ins e q = q ++ [e].
  Proof.
    induction q as [|x q IH]; intro F; cbn; auto. inversion F; subst. destruct (Z.ltb_spec (e_tp e) (e_tp x)); [lia|]. now rewrite IH.
  Qed.

  Definition finv (tr : list tev) (c : config) : Prop := exists ring, phase tr (fst c) (snd c) ring /\ deadok tr (fst c) /\ ordered tr ring.

  Lemma stok_mono : forall tr ls s q, stok tr s q -> stok (tr ++ ls) s q.
  Proof. intros tr ls s q [B1 B2 B3]. constructor; auto. Qed.
  Lemma stok_clock : forall tr s q s', stok tr s q -> s_queue s' = s_queue s -> (s_clock s <= s_clock s')%Z -> stok tr s' q.
  Proof. intros tr s q s' [B1 B2 B3] E L. constructor; auto; [congruence|]. eapply Forall_impl; [|exact B3]. cbn. intros. lia. Qed.
  Lemma phase_still : forall tr s stk ring ls s', (forall i, runs ls i = 0) -> phase tr s stk ring ->
    s_queue s' = s_queue s -> (s_clock s <= s_clock s')%Z -> s_next s' = s_next s -> phase (tr ++ ls) s' stk ring.
  Proof.
    intros tr s stk ring ls s' Z P Q C N.
    destruct P; econstructor; try congruence; eauto using ringok_mono, stok_mono, stok_clock.
    intro i. rewrite runs_app, Z. rewrite H3. reflexivity.
  Qed.
  Lemma deadok_mono : forall tr ls s s', deadok tr s -> s_dead s' = s_dead s -> deadok (tr ++ ls) s'.
  Proof. intros tr ls s s' D E h H. apply disp_app. apply D. unfold is_dead in *. now rewrite <- E. Qed.

  Lemma quiet_app : forall a b, quiet (a ++ b) -> quiet a.
  Proof. intros a b Q i D. apply (Q i). now apply disp_app. Qed.
  Lemma ordered_same : forall tr ls ring, starts ls = [] -> ordered tr ring -> ordered (tr ++ ls) ring.
  Proof. intros tr ls ring E O Q out D. rewrite starts_app, E, app_nil_r. apply O; auto. eapply quiet_app; eauto. Qed.
  Lemma ordered_dead : forall tr ls ring i, disposed_before tr i -> ordered (tr ++ ls) ring.
  Proof. intros tr ls ring i D Q. exfalso. apply (Q i). now apply disp_app. Qed.
  Lemma ordered_start : forall tr t i r q, ordered tr ((i, r) :: q) ->
    ordered (tr ++ [(t, EStart CT i)]) (if S r <? need i then q ++ [(i, S r)] else q).
  Proof.
    intros tr t i r q O Q out D. rewrite starts_app, <- app_assoc. cbn. apply O; [eapply quiet_app; eauto|]. now constructor.
  Qed.

  Lemma finv_init : forall t0, finv [] (s_init t0 (subscribe_all lens)).
  Proof.
    intro t0. exists (map (fun i => (i, 0)) (seq 0 k)). split; [|split].
    - constructor; auto. constructor; auto; try constructor; cbn; try (intros; lia); intros; contradiction.
    - intros h H. discriminate.
    - intros _ out D. exact D.
  Qed.

  Lemma nr : forall c ls, (forall e, In e ls -> match e with EStart _ _ => False | _ => True end) -> forall i, runs (map (@pair Z sev c) ls) i = 0.
  Proof.
    intros c ls H i. unfold runs. induction ls as [|e ls IH]; auto. cbn. pose proof (H e (or_introl eq_refl)) as B.
    destruct e; try (apply IH; intros; apply H; now right). contradiction.
  Qed.
  Ltac noruns := first [ apply (nr _ []); cbn; intuition; subst; auto | apply (nr _ [_]); cbn; intuition; subst; auto | apply (nr _ [_; _]); cbn; intuition; subst; auto ].

  Lemma sleep_queue : forall s tp, s_queue (fst (sleep_until s tp)) = s_queue s /\ (s_clock s <= s_clock (fst (sleep_until s tp)))%Z /\
    s_dead (fst (sleep_until s tp)) = s_dead s.
  Proof. intros s tp. unfold sleep_until. destruct (tp <=? s_last s)%Z; cbn; repeat split; try lia. Qed.

  Lemma map_key_tp : forall e tp, key (with_tp e tp) = key e.
  Proof. reflexivity. Qed.

  (** Subscription of the next source. *)
  Lemma ringok_sub : forall m tr ls ring, m < k -> (forall i, runs tr i = 0) -> (forall i, runs ls i = 0) -> ringok m tr ring ->
    ringok (S m) (tr ++ ls) (ring ++ [(m, 0)]).
  Proof.
    intros m tr ls ring L Z0 Z R. apply ringok_mono; auto. destruct R as [A1 A2 A3 A4 A5 A6]. constructor.
    - apply Forall_app. split; [eapply Forall_impl; [|exact A1]; cbn; intros; lia|]. constructor; auto.
    - apply Forall_app. split; auto. constructor; auto. cbn [fst snd]. rewrite Z0. unfold needs. lia.
    - apply sorted_snoc; auto. rewrite Forall_forall in *. intros y Y. specialize (A1 y Y). specialize (A2 y Y). rewrite Z0 in A2. left. cbn [fst snd]. lia.
    - intros i H1 H2. rewrite map_app in H2. destruct (Nat.eq_dec i m) as [->|NE].
      + exfalso. apply H2. apply in_or_app. right. now left.
      + apply A4; [lia|]. intro. apply H2. apply in_or_app. now left.
    - intros i x H. rewrite Z0. lia.
    - intro i. rewrite Z0. lia.
  Qed.
  Lemma ringok_sub_dead : forall m tr ls ring, disposed_before tr m -> (forall i, runs tr i = 0) -> (forall i, runs ls i = 0) -> ringok m tr ring ->
    ringok (S m) (tr ++ ls) ring.
  Proof.
    intros m tr ls ring D Z0 Z R. apply ringok_mono; auto. destruct R as [A1 A2 A3 A4 A5 A6]. constructor; auto.
    - eapply Forall_impl; [|exact A1]. cbn. intros. lia.
    - intros i H1 H2. destruct (Nat.eq_dec i m) as [->|NE]; auto. apply A4; auto. lia.
    - intro i. rewrite Z0. lia.
  Qed.

  Lemma finv_step : forall tr c ls c', finv tr c -> sstep c ls c' -> finv (tr ++ ls) c'.
  Proof.
    intros tr c ls c' (ring & P & DK & OR) X. destruct X as [s it rest s' its ls TS|s stk dt POS|s stk h]; cbn [fst snd] in *.
    2:{ exists ring. split; [|split]; cbn [fst snd].
        - apply (phase_still tr s); auto. cbn. lia.
        - eapply deadok_mono; eauto.
        - apply ordered_same; auto. }
    2:{ exists ring. split; [|split; [|apply ordered_same; auto]]; cbn [fst snd].
        - apply (phase_still tr s); auto. cbn. lia.
        - intros x H. unfold is_dead in H. cbn in H. apply orb_prop in H. destruct H as [H|H].
          + apply Nat.eqb_eq in H. subst x. exists (s_clock s). right. apply in_or_app. right. now left.
          + apply disp_app. apply DK. exact H. }
    remember (it :: rest) as stk. revert Heqstk DK OR TS.
    destruct P as [s Q0 N0 R0|s m q LE NX SO RO Z0|s q SO RO|s q e SO EO RO|s q e SO EO RO|s q e SO EO RO|s q e SO EO RO|s q e SO EO RO|s Q0 R0]; intros HS DK OR TS.
    - (* F0: the guard *)
      cbn in HS. injection HS as <- <-. cbn [tstep] in TS. rewrite Q0 in TS. injection TS as <- <- <-.
      exists (map (fun i => (i, 0)) (seq 0 k)). split; [|split; [eapply deadok_mono; eauto|now apply ordered_same]]. cbn [fst snd map]. rewrite !app_nil_r.
      pose proof (F1 tr (set_queue s (Some [])) 0 []) as Q. cbn [map] in Q.
      rewrite Nat.sub_0_r in Q. apply Q; auto; try lia.
      + constructor; auto.
      + intro i. destruct R0 as [_ _ _ _ _ A6]. specialize (A6 i). cbn in A6. lia.
    - (* F1: a subscription, or the end of the guard *)
      destruct (k - m) as [|n] eqn:KM.
      + cbn in HS. injection HS as <- <-. cbn [tstep] in TS. injection TS as <- <- <-. cbn [app map] in *. rewrite app_nil_r.
        assert (m = k) by lia. subst m.
        exists (map key q). split; [|split; [exact DK|cbn in OR; rewrite app_nil_r in OR; exact OR]]. cbn [fst snd]. apply F2; auto. now rewrite <- H.
      + cbn in HS. injection HS as <- <-. subst m. cbn [tstep fk] in TS. unfold ct_defer in TS.
        change (is_dead (bump s) (e_h (Entry (s_next s) (s_next s) (s_next s) 0 0))) with (is_dead s (s_next s)) in TS.
        assert (SQ : seq (S (s_next s)) n = seq (S (s_next s)) (k - S (s_next s))) by (f_equal; lia).
        destruct (is_dead s (s_next s)) eqn:D.
        * injection TS as <- <- <-. exists (map key q ++ map (fun i => (i, 0)) (seq (S (s_next s)) (k - S (s_next s)))). split; [|split; [eapply deadok_mono; eauto|eapply ordered_dead; apply DK; exact D]]. cbn [fst snd app]. rewrite SQ.
          apply F1; auto; try lia.
          -- apply stok_mono. eapply stok_clock; eauto. cbn. lia.
          -- apply ringok_sub_dead; auto; try noruns.
          -- intro i. rewrite runs_app, Z0. apply nr. cbn. intuition; subst; auto.
        * destruct SO as [B1 B2 B3]. cbn [bump s_queue] in TS. rewrite B1 in TS. unfold emplace in TS. cbn [do_now bump s_queue] in TS. rewrite B1 in TS.
          injection TS as <- <- <-.
          rewrite q_ins_end by (cbn; eapply Forall_impl; [|exact B3]; cbn; intros; lia).
          exists (map key (q ++ [with_tp (Entry (s_next s) (s_next s) (s_next s) 0 0) (s_clock s + 0)%Z]) ++ map (fun i => (i, 0)) (seq (S (s_next s)) (k - S (s_next s)))).
          split; [|split; [eapply deadok_mono; eauto|apply ordered_same; [reflexivity|]; rewrite map_app, <- app_assoc, <- SQ; exact OR]]. cbn [fst snd app]. rewrite SQ.
          apply F1; auto; try lia.
          -- constructor; cbn; auto.
             ++ apply Forall_app. split; auto. constructor; auto. split; reflexivity.
             ++ apply Forall_app. split; auto. constructor; auto. cbn. lia.
          -- rewrite map_app. cbn [map]. apply ringok_sub; auto; try lia; try noruns.
          -- intro i. rewrite runs_app, Z0. apply nr. cbn. intuition; subst; auto.
    - (* F2: drain *)
      injection HS as <- <-. cbn [tstep] in TS. destruct SO as [B1 B2 B3]. rewrite B1 in TS. destruct q as [|e q].
      + injection TS as <- <- <-. exists []. split; [|split; [eapply deadok_mono; eauto|now apply ordered_same]]. cbn [fst snd app map]. apply F8; auto. apply ringok_mono; auto.
      + inversion B2 as [|? ? (Eh & Ec) B2']; subst. inversion B3; subst. rewrite Eh in TS. destruct (is_dead s (e_id e)) eqn:D.
        * injection TS as <- <- <-. exists (map key q). split; [|split; [eapply deadok_mono; eauto|eapply ordered_dead; apply DK; exact D]]. cbn [fst snd app map]. apply F2.
          -- constructor; auto.
          -- eapply ringok_drop with (x := key e); eauto; try noruns; try (apply DK; exact D).
        * injection TS as <- <- <-. exists (map key (e :: q)). split; [|split; [eapply deadok_mono; eauto|now apply ordered_same]]. cbn [fst snd app map]. apply (F3 _ _ q e).
          -- constructor; auto.
          -- split; auto.
          -- apply ringok_mono; auto; try noruns.
    - (* F3: sleep *)
      injection HS as <- <-. cbn [tstep] in TS. destruct (sleep_queue s (e_tp e)) as (Q1 & Q2 & Q3).
      destruct (sleep_until s (e_tp e)) as (s1, b) eqn:SU. cbn [fst] in *. injection TS as <- <- <-.
      exists (map key (e :: q)). split; [|split; [eapply deadok_mono; eauto|now apply ordered_same]]. cbn [fst snd app map]. apply (F4 _ _ q e); auto.
      + apply stok_mono. eapply stok_clock; eauto.
      + apply ringok_mono; auto.
    - (* F4: run *)
      injection HS as <- <-. cbn [tstep from_beh] in TS. injection TS as <- <- <-. destruct EO as (Eh & Ec). rewrite Ec.
      pose proof (ringok_start tr (s_clock s) (e_id e) (e_runs e) (map key q) RO) as RS.
      unfold from_result. assert (NE : (S (e_runs e) <? need (e_id e)) = (S (e_runs e) <? nth (e_id e) lens 0)).
      { unfold needs. destruct (Nat.ltb_spec (S (e_runs e)) (nth (e_id e) lens 0)), (Nat.ltb_spec (S (e_runs e)) (Nat.max 1 (nth (e_id e) lens 0))); auto; lia. }
      pose proof (ordered_start tr (s_clock s) (e_id e) (e_runs e) (map key q) OR) as OS.
      cbn zeta in RS. rewrite NE in RS, OS. destruct (S (e_runs e) <? nth (e_id e) lens 0).
      + exists (map key (q ++ [again e])). split; [|split; [eapply deadok_mono; eauto|rewrite map_app; exact OS]]. cbn [fst snd app map]. apply (F6 _ _ q e).
        * now apply stok_mono.
        * split; auto.
        * rewrite map_app. exact RS.
      + exists (map key q). split; [|split; [eapply deadok_mono; eauto|exact OS]]. cbn [fst snd app map]. apply (F5 _ _ q e).
        * now apply stok_mono.
        * split; auto.
        * exact RS.
    - (* F5 *)
      injection HS as <- <-. cbn [tstep] in TS. injection TS as <- <- <-. exists (map key q). split; [|split; [eapply deadok_mono; eauto|now apply ordered_same]]. cbn [fst snd app map].
      apply F2; [now apply stok_mono|]. apply ringok_mono; auto; try noruns.
    - (* F6 *)
      injection HS as <- <-. cbn [tstep] in TS. injection TS as <- <- <-. exists (map key (q ++ [again e])). split; [|split; [eapply deadok_mono; eauto|now apply ordered_same]]. cbn [fst snd app].
      apply (F7 _ _ q (again e)); [now apply stok_mono| |].
      + destruct EO. split; auto.
      + apply ringok_mono; auto; try noruns.
    - (* F7 *)
      injection HS as <- <-. cbn [tstep] in TS. destruct EO as (Eh & Ec). rewrite Eh in TS. destruct SO as [B1 B2 B3].
      destruct (is_dead s (e_id e)) eqn:D.
      + injection TS as <- <- <-. exists (map key q). split; [|split; [eapply deadok_mono; eauto|eapply ordered_dead; apply DK; exact D]]. cbn [fst snd app map].
        apply F2; [constructor; auto|]. rewrite map_app in RO. eapply ringok_drop_last with (x := key e); eauto; try noruns; try (apply DK; exact D).
      + unfold queue_empty in TS. rewrite B1 in TS. destruct q as [|x q].
        * cbn [fk] in TS. injection TS as <- <- <-. exists (map key [e]). split; [|split; [eapply deadok_mono; eauto|now apply ordered_same]]. cbn [fst snd app map].
          apply (F4 _ _ [] e).
          -- constructor; auto.
          -- split; auto.
          -- apply ringok_mono; auto; try noruns.
        * cbn [handle fk] in TS. unfold emplace in TS. cbn [do_now s_queue s_clock] in TS. rewrite B1 in TS. injection TS as <- <- <-.
          pose proof (q_ins_end (with_tp e (s_clock s + 0)%Z) (x :: q)) as QE. cbn [q_ins with_tp e_tp] in QE. fold (with_tp e (s_clock s + 0)%Z) in QE.
          unfold with_tp in QE |- *. rewrite QE by (eapply Forall_impl; [|exact B3]; cbn; intros; lia). clear QE. fold (with_tp e (s_clock s + 0)%Z).
          exists (map key ((x :: q) ++ [with_tp e (s_clock s + 0)%Z])). split; [|split; [eapply deadok_mono; eauto|apply ordered_same; [reflexivity|]; rewrite map_app in *; exact OR]]. cbn [fst snd].
          apply F2.
          -- constructor; auto; apply Forall_app; (split; [assumption|]); constructor; auto; [split; auto|cbn; lia].
          -- rewrite map_app in *. cbn [map] in *. rewrite map_key_tp. apply ringok_mono; auto; try noruns.
    - discriminate.
  Qed.

  Lemma finv_exec : forall t0 tr c, sexec (s_init t0 (subscribe_all lens)) tr c -> finv tr c.
  Proof.
    intros t0 tr c X. remember (s_init t0 (subscribe_all lens)) as c0. induction X; subst; [apply finv_init|eapply finv_step; eauto].
  Qed.
End P.
