From Coq Require Import ZArith Permutation Lia.
From Verif Require Import Base QueueSpec QueueProofs SchedSpec SchedModel SchedProofs SchedOrder SchedAlive.
Open Scope Z_scope.

Lemma zsum_app : forall a b, zsum (a ++ b) = zsum a + zsum b.
Proof. unfold zsum. induction a as [|x a IH]; intros b; cbn [app fold_right]; [lia|]. rewrite IH. lia. Qed.
Lemma zsum_const : forall l d, (forall x, In x l -> x = d) -> zsum l = Z.of_nat (length l) * d.
Proof.
  induction l as [|x l IH]; intros d H; [reflexivity|]. cbn [zsum fold_right length]. fold (zsum l).
  rewrite (IH d), (H x); [lia | now left | intros; apply H; now right].
Qed.

Section Period.
  Variable kind : nat -> skind.
  Variable beh : nat -> nat -> list act * sres.
  Variable onerr : nat -> list act.
  Notation tstep := (tstep kind beh onerr).
  Notation sstep := (sstep kind beh onerr).
  Notation sexec := (sexec kind beh onerr).

  (** ** immediate never repeats a task behind the queue's back *)

  Definition imm_ents (it : item) : list entry :=
    match it with
    | IStart IMM e _ | ILoopHead IMM e _ | ILoopSleep IMM e _ | ILoopChk IMM e _ _ | ILoopRun IMM e _ | ILoopRet IMM e _ _ => [e]
    | _ => []
    end.
  Lemma imm_incl : forall it, incl (imm_ents it) (ents it).
  Proof. intros [?|? ?|[|] ? ?|[|] ? ?|[|] ? ?|[|] ? ? ?|[|] ? ?|[|] ? ? ?|[|] ? [|]| |?|?|? ?|? ?|?] x; cbn; tauto. Qed.
  Lemma imm_acts : forall l, flat_map imm_ents (map IAct l) = [].
  Proof. induction l; cbn; auto. Qed.

  Lemma imm_local : forall s it s' its ls e, tstep s it = (s', its, ls) -> In e (flat_map imm_ents its) ->
    (forall i, ~ In (EAgain i) ls) /\ (e_id e = s_next s \/ exists e0, In e0 (imm_ents it) /\ e_id e0 = e_id e).
  Proof.
    intros s it s' its ls e H HI.
    destruct it as [[[|] ? ? ?|[|] ? ? ?|?|?]|? ?|[|] ? ?|[|] ? [?|?|[?|] ?]|[|] ? [?|?|[?|] ?]|[|] ? ? [|]|[|] ? ?|[|] ? ? [| |?]|[|] ? [?|]| |?|?|? [| |?]|? ?|[|]];
      split_step H; rewrite ?flat_map_app, ?imm_acts in HI; cbn in HI; repeat destruct HI as [HI | HI]; try contradiction; subst.
    all: split; [intros i X; cbn in X; repeat destruct X as [X | X]; discriminate || contradiction|].
    all: cbn; first [left; reflexivity | right; eexists; split; [left; reflexivity | reflexivity]].
  Qed.
  Lemma again_in : forall s it s' its ls id, tstep s it = (s', its, ls) -> In (EAgain id) ls -> In id (ids (ents it)).
  Proof.
    intros s it s' its ls id H HI.
    destruct it as [[[|] ? ? ?|[|] ? ? ?|?|?]|? ?|? ? ?|? ? [?|?|[?|] ?]|? ? [?|?|[?|] ?]|? ? ? [|]|? ? ?|? ? ? [| |?]|[|] ? [?|]| |?|?|? [| |?]|? ?|[|]];
      in_step H HI; cbn; auto.
  Qed.

  Lemma rerun_evs : forall tr id, rerun_in tr id <-> In (EAgain id) (evs tr).
  Proof.
    intros tr id. unfold rerun_in, evs. rewrite in_map_iff. split.
    - intros (t & H). exists (t, EAgain id). auto.
    - intros ((t & e) & E & H). cbn in E. subst. eauto.
  Qed.

  Lemma imm_exec : forall t0 prog tr s stk, sexec (s_init t0 prog) tr (s, stk) ->
    forall e, In e (flat_map imm_ents stk) -> ~ rerun_in tr (e_id e).
  Proof.
    intros t0 prog tr s stk X. remember (s_init t0 prog) as c0. remember (s, stk) as c. revert s stk Heqc.
    induction X as [c|c tr c1 ls c2 X IH ST]; intros s stk E; subst.
    - unfold s_init in *. injection E as <- <-. rewrite imm_acts. contradiction.
    - inversion ST as [s0 it rest s' its ls0 HT Z1 Z2 Z3|s0 stk0 dt Z0 Z1 Z2 Z3|s0 stk0 h Z1 Z2 Z3]; subst.
      + assert (I0 := inv_exec _ _ _ _ _ _ _ _ X). specialize (IH eq_refl s0 (it :: rest) eq_refl).
        intros e HI. rewrite rerun_evs, evs_app, in_app_iff, <- rerun_evs. rewrite flat_map_app, in_app_iff in HI.
        destruct HI as [HI | HI].
        * destruct (imm_local _ _ _ _ _ _ HT HI) as [NA [E | (e0 & A & B)]]; intros [W | W]; try (eapply NA; eassumption).
          -- rewrite E, rerun_evs in W.
             assert (W2 : In (s_next s0) (alls tr)) by (apply in_flat_map; eexists; split; [exact W | now left]).
             apply (i_old _ _ _ I0) in W2. lia.
          -- rewrite <- B in W. eapply IH; [|exact W]. cbn. apply in_or_app. now left.
        * intros [W | W].
          -- eapply IH; [|exact W]. cbn. apply in_or_app. now right.
          -- apply in_flat_map in HI. destruct HI as (i & A & B). apply imm_incl in B.
             destruct (held_item s0 it rest i e A B (i_nodup _ _ _ I0)) as (_ & N & _). apply N. eapply again_in; eauto.
      + rewrite app_nil_r. apply (IH eq_refl s0 stk eq_refl).
      + intros e HI. rewrite rerun_evs. unfold evs. rewrite map_app, in_app_iff. cbn. intros [W | [W | []]]; [|discriminate].
        eapply (IH eq_refl s0 stk eq_refl); eauto. apply rerun_evs. exact W.
  Qed.

  Theorem start_due_imm : forall t0 prog tr c a t id b, sexec (s_init t0 prog) tr c -> tr = a ++ (t, EStart IMM id) :: b ->
    exists k x, due a id = Some (k, x) /\ x <= t.
  Proof.
    intros t0 prog tr c a t id b X E. destruct (start_due _ _ _ _ _ _ _ _ _ _ _ _ X E) as (k & x & A & [B | (_ & B)]); [eauto|].
    exfalso.
    destruct (locate _ _ _ _ _ _ X _ _ _ _ E) as [(tr0 & s & it & rest & s' & its & l1 & l2 & X0 & H & -> & -> & _) | (h & s & stk & E1 & _)];
      [|discriminate].
    destruct (start_step _ _ _ _ _ _ _ _ _ _ _ H) as (-> & C). cbn in B. rewrite app_nil_r in B.
    destruct C as [(e & l & -> & ->) | (e & _ & W & _)]; [|discriminate].
    eapply imm_exec; [exact X0 | | exact B]. now left.
  Qed.

  (** ** Due times in closed form *)

  Lemma repeats_app : forall a b id, repeats (a ++ b) id = repeats a id ++ repeats b id.
  Proof. intros. unfold repeats. apply flat_map_app. Qed.
  Lemma first_app : forall a b id, first_due (a ++ b) id = fold_left (first1 id) b (first_due a id).
  Proof. intros. unfold first_due. apply fold_left_app. Qed.

  Lemma skip_alls : forall tr id, ~ In id (alls tr) -> due tr id = None /\ first_due tr id = None /\ repeats tr id = [].
  Proof.
    intros tr id. induction tr as [|[t e] tr IH] using rev_ind; intros H; [auto|].
    unfold alls, evs in *. rewrite map_app, flat_map_app, in_app_iff in H. cbn in H. rewrite app_nil_r in H.
    destruct IH as (A & B & C); [tauto|]. rewrite due_app, first_app, repeats_app, A, B, C. cbn.
    destruct e as [? i|? i|? ?|?|?|? ?|? i [| |]|? ?|?|?|?]; cbn in *; auto; destruct (Nat.eqb_spec i id); auto; tauto.
  Qed.

  Definition Per (tr : list tev) : Prop := forall id k x, due tr id = Some (k, x) ->
    kind_is tr id k /\ exists f, first_due tr id = Some f /\ (k = KThis -> x = f + zsum (repeats tr id)).

  Lemma kind_app : forall tr ls id k, kind_is tr id k -> kind_is (tr ++ ls) id k.
  Proof. intros tr ls id k (t & w & h & x & H). exists t, w, h, x. rewrite !in_app_iff. tauto. Qed.

  Lemma per_snoc : forall tr t e, Per tr -> (forall id, In id (call_id e) -> ~ In id (alls tr)) -> Per (tr ++ [(t, e)]).
  Proof.
    intros tr t e P F id k x HD. rewrite due_app in HD. rewrite first_app, repeats_app. cbn in HD. cbn [fold_left].
    assert (K : due tr id = Some (k, x) -> kind_is (tr ++ [(t, e)]) id k /\ exists f, first_due tr id = Some f /\ (k = KThis -> x = f + zsum (repeats tr id))).
    { intros W. destruct (P _ _ _ W) as (A & f & B & C). split; [now apply kind_app | eauto]. }
    destruct e as [w i h k0 d|w i h k0 tp|? ?|?|?|? ?|w i [| |v]|? ?|?|?|?]; cbn in *;
      try (destruct (K HD) as (A & f & B & C); split; [exact A|]; exists f; unfold first1; rewrite B; rewrite ?app_nil_r; auto; fail).
    - destruct (Nat.eqb_spec i id) as [-> | NE].
      + injection HD as <- <-. destruct (skip_alls tr id (F id (or_introl eq_refl))) as (_ & FD & RP). split.
        * exists t, w, h, d. left. apply in_or_app. right. now left.
        * exists (t + d). unfold first1. rewrite FD. cbn. rewrite Nat.eqb_refl, RP. cbn. split; auto. lia.
      + destruct (K HD) as (A & f & B & C). split; [exact A|]. exists f. unfold first1. rewrite B, app_nil_r. auto.
    - destruct (Nat.eqb_spec i id) as [-> | NE].
      + injection HD as <- <-. destruct (skip_alls tr id (F id (or_introl eq_refl))) as (_ & FD & RP). split.
        * exists t, w, h, tp. right. apply in_or_app. right. now left.
        * exists tp. unfold first1. rewrite FD. cbn. rewrite Nat.eqb_refl, RP. cbn. split; auto. lia.
      + destruct (K HD) as (A & f & B & C). split; [exact A|]. exists f. unfold first1. rewrite B, app_nil_r. auto.
    - unfold due1 in HD. cbn in HD. destruct (Nat.eqb_spec i id) as [-> | NE].
      + destruct (due tr id) as [[k1 x1]|] eqn:DT; [|discriminate].
        destruct (P _ _ _ DT) as (A & f & B & C).
        destruct k1; injection HD as <- <-; (split; [now apply kind_app|]); exists f; unfold first1; rewrite B; split; auto; try discriminate.
        intros _. rewrite zsum_app. cbn. rewrite (C eq_refl). lia.
      + destruct (K HD) as (A & f & B & C). split; [exact A|]. exists f. unfold first1. rewrite B, app_nil_r. auto.
  Qed.

  Lemma tstep_calls_first : forall s it s' its ls, tstep s it = (s', its, ls) ->
    flat_map call_id ls = [] \/ exists e l, ls = e :: l /\ call_id e = [s_next s] /\ flat_map call_id l = [].
  Proof.
    intros s it s' its ls H.
    destruct it as [[[|] ? ? ?|[|] ? ? ?|?|?]|? ?|? ? ?|? ? [?|?|[?|] ?]|? ? [?|?|[?|] ?]|? ? ? [|]|? ? ?|? ? ? [| |?]|[|] ? [?|]| |?|?|? [| |?]|? ?|[|]];
      split_step H; cbn; first [left; reflexivity | right; eexists _, _; split; [reflexivity | split; reflexivity]].
  Qed.

  Lemma per_nocall : forall c ls tr, Per tr -> flat_map call_id ls = [] -> Per (tr ++ map (pair c) ls).
  Proof.
    intros c ls. induction ls as [|e ls IH]; intros tr P E; cbn; [now rewrite app_nil_r|].
    change ((c, e) :: map (pair c) ls) with ([(c, e)] ++ map (pair c) ls). rewrite app_assoc.
    cbn in E. apply app_eq_nil in E. destruct E as [E1 E2]. apply IH; auto. apply per_snoc; auto. rewrite E1. contradiction.
  Qed.

  Lemma per_exec : forall t0 prog tr s stk, sexec (s_init t0 prog) tr (s, stk) -> Per tr.
  Proof.
    intros t0 prog tr s stk X. remember (s_init t0 prog) as c0. remember (s, stk) as c. revert s stk Heqc.
    induction X as [c|c tr c1 ls c2 X IH ST]; intros s stk E; subst.
    - intros id k x H. discriminate.
    - inversion ST as [s0 it rest s' its ls0 HT Z1 Z2 Z3|s0 stk0 dt Z0 Z1 Z2 Z3|s0 stk0 h Z1 Z2 Z3]; subst.
      + assert (I0 := inv_exec _ _ _ _ _ _ _ _ X). specialize (IH eq_refl s0 (it :: rest) eq_refl).
        destruct (tstep_calls_first _ _ _ _ _ HT) as [E | (e & l & -> & E1 & E2)]; [now apply per_nocall|].
        cbn. change ((s_clock s0, e) :: map (pair (s_clock s0)) l) with ([(s_clock s0, e)] ++ map (pair (s_clock s0)) l).
        rewrite app_assoc. apply per_nocall; auto. apply per_snoc; auto.
        intros id HI W. rewrite E1 in HI. destruct HI as [<- | []]. apply (i_old _ _ _ I0) in W. lia.
      + rewrite app_nil_r. apply (IH eq_refl s0 stk eq_refl).
      + apply per_snoc; [apply (IH eq_refl s0 stk eq_refl)|]. contradiction.
  Qed.

  Lemma prefix_per : forall t0 prog tr c a t w id b, sexec (s_init t0 prog) tr c -> tr = a ++ (t, EStart w id) :: b -> Per a.
  Proof.
    intros t0 prog tr c a t w id b X E.
    destruct (locate _ _ _ _ _ _ X _ _ _ _ E) as [(tr0 & s & it & rest & s' & its & l1 & l2 & X0 & H & -> & -> & _) | (h & s & stk & E1 & _)];
      [|discriminate].
    destruct (start_step _ _ _ _ _ _ _ _ _ _ _ H) as (-> & C). cbn. rewrite app_nil_r. eapply per_exec; eauto.
  Qed.

  Lemma kind_unique : forall t0 prog tr s stk id k1 k2, sexec (s_init t0 prog) tr (s, stk) ->
    kind_is tr id k1 -> kind_is tr id k2 -> k1 = k2.
  Proof.
    intros t0 prog tr s stk id k1 k2 X.
    assert (K : forall tr id k, kind_is tr id k <-> exists e, In e (evs tr) /\ match e with ECall _ i _ k0 _ | ECallTo _ i _ k0 _ => i = id /\ k0 = k | _ => False end).
    { clear. intros tr id k. unfold evs. split.
      - intros (t & w & h & x & [H | H]); (eexists; split; [apply in_map_iff; eexists; split; [|exact H]; reflexivity | cbn; auto]).
      - intros (e & A & B). apply in_map_iff in A. destruct A as ((t & e0) & E & A). cbn in E. subst e0.
        destruct e; try contradiction; destruct B as [-> ->]; do 4 eexists; eauto. }
    remember (s_init t0 prog) as c0. remember (s, stk) as c. revert s stk Heqc k1 k2.
    induction X as [c|c tr c1 ls c2 X IH ST]; intros s stk E k1 k2 H1 H2; subst.
    - destruct H1 as (? & ? & ? & ? & [[] | []]).
    - inversion ST as [s0 it rest s' its ls0 HT Z1 Z2 Z3|s0 stk0 dt Z0 Z1 Z2 Z3|s0 stk0 h Z1 Z2 Z3]; subst.
      + assert (I0 := inv_exec _ _ _ _ _ _ _ _ X). specialize (IH eq_refl s0 (it :: rest) eq_refl).
        rewrite K in H1, H2. destruct H1 as (e1 & A1 & B1). destruct H2 as (e2 & A2 & B2).
        rewrite evs_app, in_app_iff in A1, A2.
        assert (NC : forall e k, In e (evs tr) -> match e with ECall _ i _ k0 _ | ECallTo _ i _ k0 _ => i = s_next s0 /\ k0 = k | _ => False end -> False).
        { intros e k A B. assert (W : In (s_next s0) (alls tr)).
          { apply in_flat_map. exists e. split; auto. destruct e; try contradiction; destruct B as [-> _]; now left. }
          apply (i_old _ _ _ I0) in W. lia. }
        destruct (tstep_calls_first _ _ _ _ _ HT) as [E | (e & l & -> & E1 & E2)].
        * assert (NN : forall e k, In e ls0 -> match e with ECall _ i _ k0 _ | ECallTo _ i _ k0 _ => i = id /\ k0 = k | _ => False end -> False).
          { intros e k A B. assert (W : In id (flat_map call_id ls0)).
            { apply in_flat_map. exists e. split; auto. destruct e; try contradiction; destruct B as [-> _]; now left. }
            rewrite E in W. contradiction. }
          destruct A1 as [A1 | A1]; [|exfalso; eauto]. destruct A2 as [A2 | A2]; [|exfalso; eauto].
          apply IH; apply K; eauto.
        * assert (NN : forall e0 k, In e0 (e :: l) -> match e0 with ECall _ i _ k0 _ | ECallTo _ i _ k0 _ => i = id /\ k0 = k | _ => False end -> e0 = e /\ id = s_next s0).
          { intros e0 k [<- | A] B.
            - split; auto. destruct e; try contradiction; destruct B as [-> _]; cbn in E1; now injection E1.
            - exfalso. assert (W : In id (flat_map call_id l)).
              { apply in_flat_map. exists e0. split; auto. destruct e0; try contradiction; destruct B as [-> _]; now left. }
              rewrite E2 in W. contradiction. }
          destruct A1 as [A1 | A1], A2 as [A2 | A2].
          -- apply IH; apply K; eauto.
          -- exfalso. destruct (NN _ _ A2 B2) as [_ ->]. eauto.
          -- exfalso. destruct (NN _ _ A1 B1) as [_ ->]. eauto.
          -- destruct (NN _ _ A1 B1) as [-> _]. destruct (NN _ _ A2 B2) as [-> _]. destruct e; try contradiction; destruct B1, B2; congruence.
      + rewrite app_nil_r in *. eapply (IH eq_refl s0 stk eq_refl); eauto.
      + apply (IH eq_refl s0 stk eq_refl); rewrite K in *; unfold evs in *; rewrite map_app in *; cbn in *.
        * destruct H1 as (e & A & B). exists e. split; auto. apply in_app_or in A. destruct A as [A | [<- | []]]; [auto | contradiction].
        * destruct H2 as (e & A & B). exists e. split; auto. apply in_app_or in A. destruct A as [A | [<- | []]]; [auto | contradiction].
  Qed.
End Period.
