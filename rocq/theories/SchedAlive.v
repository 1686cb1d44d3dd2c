From Coq Require Import ZArith Permutation Lia.
From Verif Require Import Base QueueSpec QueueProofs SchedSpec SchedModel SchedProofs SchedOrder.
Open Scope Z_scope.

Section Alive.
  Variable kind : nat -> skind.
  Variable beh : nat -> nat -> list act * sres.
  Variable onerr : nat -> list act.
  Notation tstep := (tstep kind beh onerr).
  Notation sstep := (sstep kind beh onerr).
  Notation sexec := (sexec kind beh onerr).

  (** ** Handlers *)

  Definition call_h (e : sev) : list (nat * nat) :=
    match e with ECall _ id h _ _ | ECallTo _ id h _ _ => [(id, h)] | _ => [] end.

  Lemma handler_calls : forall tr id h, handler_of tr id h <-> In (id, h) (flat_map call_h (evs tr)).
  Proof.
    intros tr id h. unfold handler_of, evs. rewrite in_flat_map. split.
    - intros (t & w & k & x & [H | H]); (eexists; split; [apply in_map_iff; eexists; split; [|exact H]; reflexivity | cbn; auto]).
    - intros (e & H1 & H2). apply in_map_iff in H1. destruct H1 as ((t & e') & E & H1). cbn in E. subst e'.
      destruct e; cbn in H2; try contradiction; destruct H2 as [E | []]; injection E as <- <-; eauto 10.
  Qed.

  Lemma tstep_ents : forall s it s' its ls, tstep s it = (s', its, ls) ->
    forall e, In e (sents its ++ qents s') ->
    (exists e0, In e0 (ents it ++ qents s) /\ e_id e0 = e_id e /\ e_h e0 = e_h e) \/
    (e_id e = s_next s /\ flat_map call_h ls = [(s_next s, e_h e)]).
  Proof.
    intros s it s' its ls H.
    destruct it as [[[|] ? ? ?|[|] ? ? ?|?|?]|? ?|[|] ? ?|[|] ? [?|?|[?|] ?]|[|] ? [?|?|[?|] ?]|[|] ? ? [|]|[|] ? ?|[|] ? ? [| |?]|[|] ? [?|]| |?|?|? [| |?]|? ?|[|]];
    split_step H.
    all: unfold qents, emplace, bump, do_now, set_queue, set_clock, sleep_for in *; cbn;
         destruct (s_queue s) eqn:HQ; cbn in *; rewrite ?HQ; try discriminate.
    all: repeat match goal with H : Some _ = Some _ |- _ => injection H as H; try subst end.
    all: intros en HI; rewrite ?sents_app, ?sents_acts, ?app_nil_r in HI; cbn in HI; rewrite ?app_nil_r in HI.
    all: repeat match type of HI with In _ (q_ins _ _) => apply q_ins_in in HI | _ \/ _ => destruct HI as [HI | HI] | False => contradiction end; subst.
    all: cbn; try (left; eexists; split; [|split; reflexivity]; cbn; auto; fail).
    all: try (left; eexists en; split; [|split; reflexivity]; cbn; auto; fail).
    all: try (right; auto; fail).
  Qed.

  Lemma call_h_ids : forall ls id h, In (id, h) (flat_map call_h ls) -> In id (flat_map call_id ls).
  Proof.
    intros ls id h H. apply in_flat_map in H. destruct H as (e & H1 & H2). apply in_flat_map. exists e. split; auto.
    destruct e; cbn in *; try contradiction; destruct H2 as [E | []]; injection E as -> _; auto.
  Qed.
  Lemma call_in_all : forall ls id, In id (flat_map call_id ls) -> In id (flat_map all_id ls).
  Proof.
    intros ls id H. apply in_flat_map in H. destruct H as (e & H1 & H2). apply in_flat_map. exists e. split; auto.
    destruct e; cbn in *; try contradiction; auto.
  Qed.

  Definition HInv (tr : list tev) (s : state) (stk : list item) : Prop :=
    (forall e h, In e (sents stk ++ qents s) -> handler_of tr (e_id e) h -> h = e_h e) /\
    (forall h, In h (s_dead s) <-> disposed_before tr h).

  Lemma tstep_dead : forall s it s' its ls, tstep s it = (s', its, ls) ->
    (forall h, In h (s_dead s') <-> In h (s_dead s) \/ In (EDisp h) ls) /\ (forall h, ~ In (EEnv h) ls).
  Proof.
    intros s it s' its ls H.
    destruct it as [[[|] ? ? ?|[|] ? ? ?|?|?]|? ?|[|] ? ?|[|] ? [?|?|[?|] ?]|[|] ? [?|?|[?|] ?]|[|] ? ? [|]|[|] ? ?|[|] ? ? [| |?]|[|] ? [?|]| |?|?|? [| |?]|? ?|[|]];
    split_step H.
    all: unfold emplace, bump, do_now, set_queue, set_clock, sleep_for in *; cbn; try destruct (s_queue s); cbn.
    all: split; [intros h0; split; [try tauto; intros [X | X]; subst; auto | intros X; repeat destruct X as [X | X]; auto; try discriminate; try contradiction; injection X as ->; auto]
                | intros h0 X; repeat destruct X as [X | X]; try discriminate; contradiction].
  Qed.

  Lemma evs_app : forall tr c ls, evs (tr ++ map (pair c) ls) = evs tr ++ ls.
  Proof. intros. unfold evs. rewrite map_app, map_map. cbn. now rewrite map_id. Qed.

  Lemma disposed_app : forall tr c ls h, (forall h, ~ In (EEnv h) ls) ->
    (disposed_before (tr ++ map (pair c) ls) h <-> disposed_before tr h \/ In (EDisp h) ls).
  Proof.
    intros tr c ls h NE. unfold disposed_before. split.
    - intros (t & H). rewrite !in_app_iff in H. rewrite !in_map_iff in H.
      destruct H as [[H | (e & E & H)] | [H | (e & E & H)]]; [left; eauto| |left; eauto|].
      + injection E as _ ->. auto.
      + injection E as _ ->. exfalso. eapply NE; eauto.
    - intros [(t & H) | H].
      + exists t. rewrite !in_app_iff. tauto.
      + exists c. left. apply in_or_app. right. apply in_map_iff. eauto.
  Qed.

  Lemma h_run : forall tr s it rest s' its ls, Inv tr s (it :: rest) -> HInv tr s (it :: rest) -> tstep s it = (s', its, ls) ->
    HInv (tr ++ map (pair (s_clock s)) ls) s' (its ++ rest).
  Proof.
    intros tr s it rest s' its ls I0 [HH HD] H.
    destruct (tstep_ids _ _ _ s it s' its ls (shape_head _ _ _ _ (i_shape _ _ _ I0)) H) as (_ & N & _).
    destruct (tstep_dead _ _ _ _ _ H) as [DD NE]. split.
    - intros e h HI HO. rewrite handler_calls, evs_app, flat_map_app, in_app_iff, <- handler_calls in HO.
      assert (HL : forall x, In x (sents (it :: rest) ++ qents s) -> (e_id x < s_next s)%nat).
      { intros x Hx. apply (i_live _ _ _ I0). unfold held, ids. rewrite <- map_app. now apply in_map. }
      assert (C : (exists e0, In e0 (sents (it :: rest) ++ qents s) /\ e_id e0 = e_id e /\ e_h e0 = e_h e) \/
                  (e_id e = s_next s /\ flat_map call_h ls = [(s_next s, e_h e)])).
      { rewrite sents_app, in_app_iff in HI. cbn.
        assert (HI' : In e (sents its ++ qents s') \/ In e (sents rest)) by (rewrite !in_app_iff in *; tauto).
        destruct HI' as [HI' | HI'].
        - destruct (tstep_ents _ _ _ _ _ H e HI') as [(e0 & A & B) | A]; [left|auto].
          exists e0. split; auto. rewrite !in_app_iff in *. tauto.
        - left. exists e. rewrite !in_app_iff. auto. }
      destruct C as [(e0 & A & B1 & B2) | (B1 & B2)].
      + rewrite <- B1, <- B2 in *. destruct HO as [HO | HO].
        * eapply HH; eauto.
        * exfalso. apply call_h_ids in HO. apply HL in A. destruct N as [[E _] | [E _]]; rewrite E in HO; cbn in HO; lia.
      + rewrite B1 in HO. destruct HO as [HO | HO].
        * exfalso. rewrite handler_calls in HO. apply call_h_ids, call_in_all in HO. apply (i_old _ _ _ I0) in HO. lia.
        * rewrite B2 in HO. destruct HO as [E | []]. now injection E.
    - intros h. rewrite DD, HD, disposed_app; auto. tauto.
  Qed.

  Lemma h_exec : forall t0 prog tr s stk, sexec (s_init t0 prog) tr (s, stk) -> HInv tr s stk.
  Proof.
    intros t0 prog tr s stk X. remember (s_init t0 prog) as c0. remember (s, stk) as c. revert s stk Heqc.
    induction X as [c|c tr c1 ls c2 X IH ST]; intros s stk E; subst.
    - unfold s_init in *. injection E as <- <-. split.
      + intros e h HI. rewrite sents_acts in HI. contradiction.
      + cbn. intros h. split; [contradiction|]. intros (t & [[] | []]).
    - inversion ST; subst.
      + eapply h_run; eauto. eapply inv_exec; eauto.
      + rewrite app_nil_r. exact (IH eq_refl s0 stk eq_refl).
      + destruct (IH eq_refl s0 stk eq_refl) as [A B]. split.
        * intros e h0 HI (t & w & k & x & HO). apply A; auto. exists t, w, k, x.
          rewrite !in_app_iff in HO. cbn in HO. intuition discriminate.
        * intros h0. cbn. rewrite B. unfold disposed_before. split.
          -- intros [-> | (t & Ht)]; [exists (s_clock s0); right; apply in_or_app; right; now left|].
             exists t. rewrite !in_app_iff. tauto.
          -- intros (t & Ht). rewrite !in_app_iff in Ht. cbn in Ht.
             destruct Ht as [[Ht | [Ht | []]] | [Ht | [Ht | []]]]; try discriminate; [right; eauto | right; eauto |].
             injection Ht as _ ->. auto.
  Qed.

  Lemma is_dead_in : forall s h, is_dead s h = true <-> In h (s_dead s).
  Proof.
    intros s h. unfold is_dead. rewrite existsb_exists. split.
    - intros (x & A & B). apply Nat.eqb_eq in B. now subst.
    - intros A. exists h. split; auto. apply Nat.eqb_refl.
  Qed.

  (** Other threads may dispose handlers at any time: what is picked has a live handler. *)
  Theorem pick_alive : forall t0 prog tr c a t id b h, sexec (s_init t0 prog) tr c -> tr = a ++ (t, EPick id) :: b ->
    handler_of a id h -> ~ disposed_before a h.
  Proof.
    intros t0 prog tr c a t id b h X E HO HD.
    destruct (locate _ _ _ _ _ _ X _ _ _ _ E) as [(tr0 & s & it & rest & s' & its & l1 & l2 & X0 & H & -> & -> & _) | (h0 & s & stk & E1 & _)];
      [|discriminate].
    destruct (pick_in _ _ _ _ _ _ _ id _ H) as (E1 & e & q & Q & -> & AL); [apply in_or_app; right; now left|].
    symmetry in E1. apply single_split in E1. destruct E1 as [-> _]. cbn in *. rewrite app_nil_r in *.
    destruct (h_exec _ _ _ _ _ X0) as [A B]. rewrite <- B, <- is_dead_in in HD.
    assert (h = e_h e). { apply A; auto. apply in_or_app. right. unfold qents. rewrite Q. now left. }
    congruence.
  Qed.

  (** ** Nobody else disposes: no disposed handler's task starts *)

  Definition armed (it : item) : option entry :=
    match it with
    | ILoopSleep _ e _ | ILoopChk _ e _ _ | ILoopRun _ e _ | ITopSleep e | ITopRun e => Some e
    | _ => None
    end.
  Definition stable (it : item) : Prop := armed it = None.
  Definition alive (s : state) (it : item) : Prop := match armed it with Some e => is_dead s (e_h e) = false | None => True end.
  Definition AInv (s : state) (stk : list item) : Prop :=
    match stk with [] => True | it :: rest => alive s it /\ Forall stable rest end.

  Lemma stable_acts : forall l, Forall stable (map IAct l).
  Proof. intros l. apply Forall_forall. intros i H. apply in_map_iff in H. destruct H as (? & <- & _). reflexivity. Qed.
  Lemma alive_acts : forall s l r, (exists x, r = [x] /\ stable x) \/ r = [] -> AInv s (map IAct l ++ r).
  Proof.
    intros s [|a l] r H; cbn; [destruct H as [(x & -> & H) | ->]; cbn; auto; split; auto; unfold alive; now rewrite H|].
    split; [exact I|]. apply Forall_app. split; [apply stable_acts|]. destruct H as [(x & -> & H) | ->]; auto.
  Qed.

  Lemma alive_local : forall s it s' its ls, tstep s it = (s', its, ls) -> alive s it -> AInv s' its.
  Proof.
    intros s it s' its ls H HA.
    destruct it as [[[|] ? ? ?|[|] ? ? ?|?|?]|? ?|[|] ? ?|[|] ? [?|?|[?|] ?]|[|] ? [?|?|[?|] ?]|[|] ? ? [|]|[|] ? ?|[|] ? ? [| |?]|[|] ? [?|]| |?|?|? [| |?]|? ?|[|]];
    split_step H.
    all: try (apply alive_acts; first [left; eexists; split; reflexivity | right; reflexivity]).
    all: try (rewrite <- (app_nil_r (map _ _)); apply alive_acts; auto; fail).
    all: cbn in *; auto; try (split; [first [exact I | exact HA | assumption]|]; auto).
    all: try (constructor; [reflexivity | constructor]).
  Qed.
  Lemma alive_run : forall s it rest s' its ls, AInv s (it :: rest) -> tstep s it = (s', its, ls) -> AInv s' (its ++ rest).
  Proof.
    intros s it rest s' its ls [A B] H. assert (C := alive_local _ _ _ _ _ H A).
    destruct its as [|x its]; cbn in *.
    - destruct rest as [|y rest]; cbn; auto. inversion B as [|? ? B1 B2]; subst. split; auto. unfold alive. rewrite B1. exact I.
    - destruct C as [C1 C2]. split; auto. apply Forall_app. auto.
  Qed.
  Lemma alive_exec : forall t0 prog tr s stk, sexec (s_init t0 prog) tr (s, stk) -> (forall t h, ~ In (t, EEnv h) tr) -> AInv s stk.
  Proof.
    intros t0 prog tr s stk X. remember (s_init t0 prog) as c0. remember (s, stk) as c. revert s stk Heqc.
    induction X as [c|c tr c1 ls c2 X IH ST]; intros s stk E NE; subst.
    - unfold s_init in *. injection E as <- <-. rewrite <- (app_nil_r (map _ _)). apply alive_acts. auto.
    - assert (NE' : forall t h, ~ In (t, EEnv h) tr) by (intros t h W; apply (NE t h); apply in_or_app; auto).
      inversion ST; subst.
      + eapply alive_run; eauto.
      + specialize (IH eq_refl s0 stk eq_refl NE'). destruct stk; auto.
      + exfalso. apply (NE (s_clock s0) h). apply in_or_app. right. now left.
  Qed.

  Theorem start_alive : forall t0 prog tr c a t w id b h, sexec (s_init t0 prog) tr c -> tr = a ++ (t, EStart w id) :: b ->
    (forall t h, ~ In (t, EEnv h) a) -> handler_of a id h -> ~ disposed_before a h.
  Proof.
    intros t0 prog tr c a t w id b h X E NE HO HD.
    destruct (locate _ _ _ _ _ _ X _ _ _ _ E) as [(tr0 & s & it & rest & s' & its & l1 & l2 & X0 & H & -> & -> & _) | (h0 & s & stk & E1 & _)];
      [|discriminate].
    destruct (start_step _ _ _ _ _ _ _ _ _ _ _ H) as (-> & C). cbn in *. rewrite app_nil_r in *.
    destruct (h_exec _ _ _ _ _ X0) as [A B]. destruct (alive_exec _ _ _ _ _ X0 NE) as [AL _].
    rewrite <- B, <- is_dead_in in HD.
    destruct C as [(e & l & -> & ->) | (e & -> & _ & ->)]; cbn in AL;
      (assert (h = e_h e) by (apply A; auto; now left)); congruence.
  Qed.

  (** ** Other threads dispose: at most one more run *)

  Definition armedc (id : nat) (it : item) : nat :=
    match armed it with Some e => if Nat.eqb (e_id e) id then 1%nat else 0%nat | None => 0%nat end.
  Fixpoint sumn (l : list nat) : nat := match l with [] => 0%nat | x :: r => (x + sumn r)%nat end.
  Definition armeds (id : nat) (stk : list item) : nat := sumn (map (armedc id) stk).
  Definition startc (id : nat) (e : sev) : nat := match e with EStart _ i => if Nat.eqb i id then 1%nat else 0%nat | _ => 0%nat end.
  Definition starts (id : nat) (tr : list tev) : nat := sumn (map (startc id) (evs tr)).

  Lemma sumn_app : forall a b, sumn (a ++ b) = (sumn a + sumn b)%nat.
  Proof. induction a; cbn; intros; rewrite ?IHa; lia. Qed.
  Lemma armeds_app : forall id a b, armeds id (a ++ b) = (armeds id a + armeds id b)%nat.
  Proof. intros. unfold armeds. now rewrite map_app, sumn_app. Qed.
  Lemma armeds_acts : forall id l, armeds id (map IAct l) = 0%nat.
  Proof. intros id l. unfold armeds. induction l; cbn; auto. Qed.
  Lemma starts_app : forall id tr c ls, starts id (tr ++ map (pair c) ls) = (starts id tr + sumn (map (startc id) ls))%nat.
  Proof. intros. unfold starts. now rewrite evs_app, map_app, sumn_app. Qed.

  Lemma armed_local : forall s it s' its ls id h, tstep s it = (s', its, ls) -> is_dead s h = true ->
    (forall e, In e (ents it ++ qents s) -> e_id e = id -> e_h e = h) ->
    (armeds id its + sumn (map (startc id) ls) <= armedc id it)%nat.
  Proof.
    intros s it s' its ls id h H HD HE.
    destruct it as [[[|] ? ? ?|[|] ? ? ?|?|?]|? ?|[|] ? ?|[|] ? [?|?|[?|] ?]|[|] ? [?|?|[?|] ?]|[|] ? ? [|]|[|] ? ?|[|] ? ? [| |?]|[|] ? [?|]| |?|?|? [| |?]|? ?|[|]];
    split_step H.
    all: rewrite ?armeds_app, ?armeds_acts; unfold armeds, armedc; cbn; try lia.
    all: try (destruct (Nat.eqb_spec (e_id e) id) as [EI|]; cbn; try lia;
              assert (EH : e_h e = h) by (apply HE; auto; unfold qents; rewrite ?Heqo; cbn; auto); congruence).
  Qed.

  Lemma dead_mono : forall s it s' its ls h, tstep s it = (s', its, ls) -> is_dead s h = true -> is_dead s' h = true.
  Proof.
    intros s it s' its ls h H HD. rewrite is_dead_in in *. apply (tstep_dead _ _ _ _ _ H). auto.
  Qed.

  Lemma sexec_app : forall c a c1 b c2, sexec c a c1 -> sexec c1 b c2 -> sexec c (a ++ b) c2.
  Proof.
    intros c a c1 b c2 X Y. revert X. induction Y; intros X; [now rewrite app_nil_r|].
    rewrite app_assoc. eapply SSnoc; eauto.
  Qed.

  Lemma after_dead : forall t0 prog a s1 k1, sexec (s_init t0 prog) a (s1, k1) -> forall b s2 k2 id h,
    sexec (s1, k1) b (s2, k2) -> is_dead s1 h = true -> handler_of a id h ->
    is_dead s2 h = true /\ (armeds id k2 + starts id b <= armeds id k1)%nat.
  Proof.
    intros t0 prog a s1 k1 X b s2 k2 id h Y HD HO.
    remember (s1, k1) as c1. remember (s2, k2) as c2. revert s2 k2 Heqc2.
    induction Y as [c|c tr c2 ls c3 Y IH ST]; intros s2 k2 E; subst.
    - injection E as <- <-. unfold starts. cbn. split; auto. lia.
    - inversion ST; subst.
      + destruct (IH eq_refl X s (it :: rest) eq_refl) as [A B].
        assert (XY := sexec_app _ _ _ _ _ X Y). destruct (h_exec _ _ _ _ _ XY) as [HA _].
        split; [eapply dead_mono; eauto|].
        assert (L := armed_local s it s2 its ls0 id h H2 A).
        rewrite starts_app, armeds_app. assert (B' : armeds id (it :: rest) = (armedc id it + armeds id rest)%nat) by reflexivity.
        assert (L2 : (armeds id its + sumn (map (startc id) ls0) <= armedc id it)%nat).
        { apply L. intros e HI <-. symmetry. apply HA.
          - cbn. rewrite !in_app_iff in *. tauto.
          - destruct HO as (t & w & k & x & HO). exists t, w, k, x. rewrite !in_app_iff. tauto. }
        lia.
      + rewrite app_nil_r. exact (IH eq_refl X s k2 eq_refl).
      + destruct (IH eq_refl X s k2 eq_refl) as [A B]. split.
        * rewrite is_dead_in in *. cbn. auto.
        * change [(s_clock s, EEnv h0)] with (map (pair (s_clock s)) [EEnv h0]). rewrite starts_app. cbn. lia.
  Qed.

  Lemma armed_ids : forall id stk, (armeds id stk <= count_occ Nat.eq_dec (ids (sents stk)) id)%nat.
  Proof.
    intros id. induction stk as [|it stk IH]; [cbn; lia|].
    unfold armeds, sents, ids in *. cbn. rewrite map_app, count_occ_app.
    assert (armedc id it <= count_occ Nat.eq_dec (map e_id (ents it)) id)%nat; [|lia].
    unfold armedc. destruct it; cbn; try lia; destruct (Nat.eqb_spec (e_id e) id); destruct (Nat.eq_dec (e_id e) id); try congruence; lia.
  Qed.

  Theorem env_dispose_once : forall t0 prog tr c a t h b id, sexec (s_init t0 prog) tr c -> tr = a ++ (t, EEnv h) :: b ->
    handler_of a id h -> (starts id b <= 1)%nat.
  Proof.
    intros t0 prog tr c a t h b id X E HO.
    assert (K : forall c0 tr c, sexec c0 tr c -> forall a t h b, tr = a ++ (t, EEnv h) :: b ->
      exists s k, sexec c0 a (s, k) /\
        sexec (State (s_clock s) (s_last s) (s_queue s) (h :: s_dead s) (s_next s), k) b c).
    { clear. intros c0 tr c X. induction X as [c|c tr c1 ls c2 X IH ST]; intros a t h b E; [destruct a; discriminate|].
      destruct (app_split _ _ _ _ _ _ E) as [(b' & E1 & ->) | (l & -> & E1)].
      - destruct (IH _ _ _ _ E1) as (s & k & A & B). exists s, k. split; auto. eapply SSnoc; eauto.
      - clear E IH. revert E1. inversion ST; subst; intros E1.
        + destruct (map_pair_split _ _ _ _ _ _ E1) as (l1 & l2 & -> & _ & _). exfalso.
          match goal with HT : SchedModel.tstep _ _ _ _ _ = _ |- _ => destruct (tstep_dead _ _ _ _ _ HT) as [_ NE] end.
          apply (NE h). apply in_or_app. right. now left.
        + destruct l; discriminate.
        + destruct l as [|? [|? ?]]; cbn in *; try discriminate. injection E1 as _ <- <-.
          exists s, stk. rewrite app_nil_r. split; auto. constructor. }
    destruct (K _ _ _ X _ _ _ _ E) as (s & k & A & B). destruct c as [s2 k2].
    assert (A' : sexec (s_init t0 prog) (a ++ [(s_clock s, EEnv h)]) (State (s_clock s) (s_last s) (s_queue s) (h :: s_dead s) (s_next s), k)).
    { eapply SSnoc; eauto. constructor. }
    destruct (after_dead _ _ _ _ _ A' b s2 k2 id h B) as [_ L].
    - rewrite is_dead_in. now left.
    - destruct HO as (t1 & w & k1 & x & HO). exists t1, w, k1, x. rewrite !in_app_iff. tauto.
    - assert (ND := i_nodup _ _ _ (inv_exec _ _ _ _ _ _ _ _ A)). unfold held in ND.
      assert (C := armed_ids id k).
      assert (ND2 : NoDup (ids (sents k))).
      { clear -ND. revert ND. generalize (ids (qents s)). induction (ids (sents k)) as [|x l IH]; intros q ND; [constructor|].
        cbn in ND. inversion ND as [|? ? N1 N2]; subst. constructor; [|eauto]. intros W. apply N1. apply in_or_app; auto. }
      apply (NoDup_count_occ Nat.eq_dec) with (x := id) in ND2. lia.
  Qed.

  (** ** Errors *)

  Lemma err_in : forall s it s' its id h ls, tstep s it = (s', its, ls) -> In (EErr id h) ls ->
    exists w, ls = [EEnd w id RThrow; EErr id h].
  Proof.
    intros s it s' its id h ls H HI.
    destruct it as [[[|] ? ? ?|[|] ? ? ?|?|?]|? ?|? ? ?|? ? [?|?|[?|] ?]|? ? [?|?|[?|] ?]|? ? ? [|]|? ? ?|? ? ? [| |?]|[|] ? [?|]| |?|?|? [| |?]|? ?|[|]];
      in_step H HI; eauto.
  Qed.
  Lemma throw_in : forall s it s' its w id ls, tstep s it = (s', its, ls) -> In (EEnd w id RThrow) ls ->
    exists e, ents it = [e] /\ id = e_id e /\ ls = [EEnd w id RThrow; EErr id (e_h e)].
  Proof.
    intros s it s' its w id ls H HI.
    destruct it as [[[|] ? ? ?|[|] ? ? ?|?|?]|? ?|? ? ?|? ? [?|?|[?|] ?]|? ? [?|?|[?|] ?]|? ? ? [|]|? ? ?|? ? ? [| |?]|[|] ? [?|]| |?|?|? [| |?]|? ?|[|]];
      in_step H HI; (eexists; split; [reflexivity|]; auto).
  Qed.

  (** A throw is reported at once to the task's handler. *)
  Theorem throw_reported : forall t0 prog tr c a t w id b, sexec (s_init t0 prog) tr c -> tr = a ++ (t, EEnd w id RThrow) :: b ->
    exists h b', b = (t, EErr id h) :: b' /\ (forall h', handler_of a id h' -> h' = h).
  Proof.
    intros t0 prog tr c a t w id b X E.
    destruct (locate _ _ _ _ _ _ X _ _ _ _ E) as [(tr0 & s & it & rest & s' & its & l1 & l2 & X0 & H & -> & -> & b' & ->) | (h & s & stk & E1 & _)];
      [|discriminate].
    destruct (throw_in _ _ _ _ w id _ H) as (e & EE & -> & EL); [apply in_or_app; right; now left|].
    destruct l1 as [|? [|? ?]]; cbn in EL; try discriminate.
    - injection EL as ->. exists (e_h e), b'. split; [reflexivity|]. cbn. rewrite app_nil_r. intros h' HO.
      destruct (h_exec _ _ _ _ _ X0) as [A _]. apply A; auto. cbn. rewrite EE. now left.
    - injection EL as _ EL. destruct l; discriminate.
  Qed.
  (** Nothing else is reported. *)
  Theorem report_thrown : forall t0 prog tr c a t id h b, sexec (s_init t0 prog) tr c -> tr = a ++ (t, EErr id h) :: b ->
    exists w a', a = a' ++ [(t, EEnd w id RThrow)].
  Proof.
    intros t0 prog tr c a t id h b X E.
    destruct (locate _ _ _ _ _ _ X _ _ _ _ E) as [(tr0 & s & it & rest & s' & its & l1 & l2 & X0 & H & -> & -> & _) | (h0 & s & stk & E1 & _)];
      [|discriminate].
    destruct (err_in _ _ _ _ id h _ H) as (w & EL); [apply in_or_app; right; now left|].
    destruct l1 as [|? [|? [|? ?]]]; cbn in EL; try discriminate.
    injection EL as -> _. exists w, tr0. reflexivity.
  Qed.
  Lemma fin_last : forall s it s' its p f r, tstep s it = (s', its, p ++ f :: r) -> fin_id f <> [] ->
    r = [] \/ exists w i h, f = EEnd w i RThrow /\ p = [] /\ r = [EErr i h].
  Proof.
    intros s it s' its p f r H HF. remember (p ++ f :: r) as ls eqn:EL.
    destruct it as [[[|] ? ? ?|[|] ? ? ?|?|?]|? ?|? ? ?|? ? [?|?|[?|] ?]|? ? [?|?|[?|] ?]|? ? ? [|]|? ? ?|? ? ? [| |?]|[|] ? [?|]| |?|?|? [| |?]|? ?|[|]];
      split_step H.
    all: destruct p as [|p1 [|p2 [|p3 p]]]; cbn in EL; try discriminate EL; injection EL; intros; subst; cbn in HF; try congruence; auto.
    all: right; eauto 7.
  Qed.
  (** After it is over, a task appears in no further event. *)
  Theorem finished_silent : forall t0 prog tr c a t ev b id, sexec (s_init t0 prog) tr c -> tr = a ++ (t, ev) :: b ->
    finished_in a id -> In id (all_id ev) -> exists h w a', ev = EErr id h /\ a = a' ++ [(t, EEnd w id RThrow)].
  Proof.
    intros t0 prog tr c a t ev b id X E HF HI.
    destruct (locate _ _ _ _ _ _ X _ _ _ _ E) as [(tr0 & s & it & rest & s' & its & l1 & l2 & X0 & H & -> & -> & _) | (h0 & s & stk & E1 & _)];
      [|subst ev; contradiction HI].
    assert (I0 := inv_exec _ _ _ _ _ _ _ _ X0).
    destruct (tstep_ids _ _ _ s it s' its _ (shape_head _ _ _ _ (i_shape _ _ _ I0)) H) as (_ & N & IN).
    assert (W : ~ In id (fins tr0)).
    { assert (W : In id (flat_map all_id (l1 ++ ev :: l2))) by (rewrite flat_map_app; cbn; rewrite !in_app_iff; auto).
      apply IN in W. rewrite in_app_iff in W. destruct W as [W | W].
      - destruct N as [[E1 _] | [E1 _]]; rewrite E1 in W; cbn in W; [contradiction|]. destruct W as [<- | []].
        intros W. apply (fin_in_all kind beh onerr), (i_old _ _ _ I0) in W. lia.
      - apply (i_live _ _ _ I0). unfold held. cbn. unfold ids in *. rewrite map_app. rewrite !in_app_iff in *. tauto. }
    apply finished_fins in HF. rewrite fins_app, in_app_iff in HF. destruct HF as [HF | HF]; [contradiction|].
    (* the end of the task is in the same step *)
    apply in_flat_map in HF. destruct HF as (f & F1 & F2). destruct (in_split _ _ F1) as (p & q & EP). subst l1.
    rewrite <- app_assoc in H. cbn in H.
    destruct (fin_last _ _ _ _ _ _ _ H) as [E1 | (w & i & h & -> & -> & E1)]; [intros W1; rewrite W1 in F2; contradiction | |].
    - destruct q; discriminate.
    - cbn in F2. destruct F2 as [-> | []]. destruct q as [|? [|? ?]]; cbn in E1; try discriminate.
      injection E1 as -> _. exists h, w, tr0. auto.
  Qed.
End Alive.
