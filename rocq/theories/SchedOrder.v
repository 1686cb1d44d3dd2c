From Coq Require Import ZArith Permutation Lia.
From Verif Require Import Base QueueSpec QueueProofs SchedSpec SchedModel SchedProofs.
Open Scope Z_scope.

Definition key (e : entry) : Z * nat := (e_tp e, e_id e).
Lemma key_ins : forall e q, map key (q_ins e q) = ins (key e) (map key q).
Proof. induction q as [|x q IH]; cbn; auto. destruct (_ <? _); cbn; congruence. Qed.

Lemma first_min_in : forall w y r, first_min w = Some (y, r) -> In y w /\ forall z, In z w -> fst y <= fst z.
Proof.
  induction w as [|x w IH]; cbn [first_min]; intros y r E; [discriminate|].
  destruct (first_min w) as [[y' r']|] eqn:F.
  - destruct (IH _ _ eq_refl) as [A B]. destruct (Z.ltb_spec (fst y') (fst x)); injection E as <- <-.
    + split; [now right|]. intros z [<- | Hz]; [lia | auto].
    + split; [now left|]. intros z [<- | Hz]; [lia|]. specialize (B z Hz). lia.
  - injection E as <- <-. split; [now left|]. intros z [<- | Hz]; [lia|].
    pose proof (first_min_sort w) as S1. rewrite F in S1. subst. contradiction.
Qed.
Lemma filter_none : forall i (w : waiting), ~ In i (idsw w) -> filter (fun x => negb (Nat.eqb (snd x) i)) w = w.
Proof.
  induction w as [|x w IH]; cbn; intros H; auto. destruct (Nat.eqb_spec (snd x) i); [tauto|]. cbn. f_equal. tauto.
Qed.
Lemma first_min_filter : forall w y r, NoDup (idsw w) -> first_min w = Some (y, r) ->
  filter (fun x => negb (Nat.eqb (snd x) (snd y))) w = r.
Proof.
  induction w as [|x w IH]; cbn [first_min]; intros y r N E; [discriminate|].
  cbn in N. inversion N as [|? ? N1 N2]; subst.
  destruct (first_min w) as [[y' r']|] eqn:F.
  - destruct (Z.ltb_spec (fst y') (fst x)); injection E as <- <-; cbn.
    + destruct (Nat.eqb_spec (snd x) (snd y')) as [E | E]; cbn.
      * exfalso. apply N1. rewrite E. apply in_map. eapply first_min_in; eauto.
      * f_equal. eauto.
    + rewrite Nat.eqb_refl. cbn. apply filter_none; auto.
  - injection E as <- <-. cbn. rewrite Nat.eqb_refl. cbn.
    pose proof (first_min_sort w) as S1. rewrite F in S1. subst. reflexivity.
Qed.
Lemma ins_perm : forall x l, Permutation (ins x l) (x :: l).
Proof. induction l; cbn; auto. destruct (_ <? _); auto. rewrite IHl. constructor. Qed.
Lemma sortw_perm : forall w, Permutation (sortw w) w.
Proof.
  induction w as [|x w IH] using rev_ind; [constructor|].
  rewrite sortw_snoc, ins_perm, IH. apply Permutation_cons_append.
Qed.

Lemma pending_app : forall tr ls, pending (tr ++ ls) = fold_left pending1 ls (pending tr).
Proof. intros. unfold pending. now rewrite fold_left_app. Qed.

Section Order.
  Variable kind : nat -> skind.
  Variable beh : nat -> nat -> list act * sres.
  Variable onerr : nat -> list act.
  Notation tstep := (tstep kind beh onerr).
  Notation sstep := (sstep kind beh onerr).
  Notation sexec := (sexec kind beh onerr).

  Definition neutral (it : item) (ls : list sev) (e : sev) : Prop :=
    match e with ESubmit _ _ | EPick _ => False | EDrop id => In id (flat_map call_id ls ++ ids (ents it)) | _ => True end.

  Lemma tstep_pend : forall s it s' its ls, head_ok s it -> tstep s it = (s', its, ls) ->
    (qents s' = qents s /\ Forall (neutral it ls) ls) \/
    (exists e tp l1, ls = l1 ++ [ESubmit (e_id e) tp] /\ qents s' = q_ins (with_tp e tp) (qents s) /\ Forall (neutral it ls) l1) \/
    (exists e q, s_queue s = Some (e :: q) /\ s_queue s' = Some q /\ (ls = [EDrop (e_id e)] \/ ls = [EPick (e_id e)])).
  Proof.
    intros s it s' its ls HO H.
    destruct it as [[[|] ? ? ?|[|] ? ? ?|?|?]|? ?|[|] ? ?|[|] ? [?|?|[?|] ?]|[|] ? [?|?|[?|] ?]|[|] ? ? [|]|[|] ? ?|[|] ? ? [| |?]|[|] ? [?|]| |?|?|? [| |?]|? ?|[|]];
    split_step H.
    all: unfold qents, emplace, bump, do_now, set_queue, set_clock, sleep_for in *; cbn in *;
         destruct (s_queue s) eqn:HQ; cbn in *; rewrite ?HQ; try congruence; try discriminate.
    all: repeat match goal with H : Some _ = Some _ |- _ => injection H as H; try subst end.
    all: try (left; split; [reflexivity | repeat constructor; cbn; auto; fail]).
    all: try (right; right; eauto 10; fail).
    all: right; left.
    all: first [eexists e, _, []; split; [reflexivity|]; split; [reflexivity|constructor]
               | eexists (Entry _ _ _ _ 0), _, [_]; split; [reflexivity|]; split; [reflexivity|repeat constructor]].
  Qed.

  Definition PendInv (tr : list tev) (s : state) : Prop := map key (qents s) = sortw (pending tr).

  Lemma neutral_fold : forall c ls w, (forall id, In (EDrop id) ls -> ~ In id (idsw w)) ->
    Forall (fun e => match e with ESubmit _ _ | EPick _ => False | _ => True end) ls ->
    fold_left pending1 (map (pair c) ls) w = w.
  Proof.
    intros c ls. induction ls as [|e ls IH]; cbn; intros w HD HF; auto. inversion HF; subst.
    assert (E : pending1 w (c, e) = w).
    { unfold pending1. cbn. destruct e; auto; try contradiction. apply filter_none. apply HD. now left. }
    rewrite E. apply IH; auto.
  Qed.

  Lemma pend_ids : forall tr s, PendInv tr s -> Permutation (idsw (pending tr)) (ids (qents s)).
  Proof.
    intros tr s H. unfold PendInv in H. unfold idsw, ids. rewrite <- (sortw_perm (pending tr)), <- H, map_map. reflexivity.
  Qed.

  Lemma pend_run : forall tr s it rest s' its ls, Inv tr s (it :: rest) -> PendInv tr s -> tstep s it = (s', its, ls) ->
    PendInv (tr ++ map (pair (s_clock s)) ls) s'.
  Proof.
    intros tr s it rest s' its ls I0 PI H.
    assert (HO := shape_head _ _ _ _ (i_shape _ _ _ I0)).
    destruct (tstep_ids _ _ _ s it s' its ls HO H) as (_ & N & _).
    assert (PID := pend_ids _ _ PI).
    assert (ND : NoDup (idsw (pending tr))).
    { eapply Permutation_NoDup; [symmetry; exact PID|]. eapply nodup_app_r. apply (i_nodup _ _ _ I0). }
    assert (NI : forall id, In id (flat_map call_id ls ++ ids (ents it)) -> ~ In id (idsw (pending tr))).
    { intros id X Y. eapply Permutation_in in Y; [|exact PID]. rewrite in_app_iff in X. destruct X as [X | X].
      - destruct N as [[E _] | [E _]]; rewrite E in X; cbn in X; [contradiction|]. destruct X as [<- | []].
        assert (W : In (s_next s) (held s (it :: rest))) by (apply in_or_app; right; auto).
        apply (i_live _ _ _ I0) in W. lia.
      - assert (W := i_nodup _ _ _ I0). unfold held in W. cbn in W. unfold ids in *. rewrite map_app, <- app_assoc in W.
        eapply nodup_app_no; [exact W | exact X|]. apply in_or_app; auto. }
    unfold PendInv in *. rewrite pending_app.
    destruct (tstep_pend s it s' its ls HO H) as [(E & F) | [(e & tp & l1 & E & Q & F) | (e & q & E1 & E2 & E3)]].
    - rewrite neutral_fold, E; auto.
      + intros id HI. apply NI. eapply Forall_forall in F; [|exact HI]. exact F.
      + eapply Forall_impl; [|exact F]. intros ev. destruct ev; cbn; auto.
    - rewrite E, map_app, fold_left_app. rewrite (neutral_fold (s_clock s) l1).
      + change (fold_left pending1 (map (pair (s_clock s)) [ESubmit (e_id e) tp]) (pending tr)) with (pending tr ++ [(tp, e_id e)]). rewrite sortw_snoc, <- PI, Q. rewrite key_ins. reflexivity.
      + intros id HI. rewrite E in F. apply NI. rewrite E. eapply Forall_forall in F; [|exact HI]. exact F.
      + eapply Forall_impl; [|exact F]. intros ev. destruct ev; cbn; auto.
    - unfold qents in *. rewrite E1 in PI. rewrite E2. cbn in PI. pose proof (first_min_sort (pending tr)) as FM.
      destruct (first_min (pending tr)) as [[y r]|] eqn:F; [|rewrite FM in PI; discriminate].
      rewrite FM in PI. injection PI as PI1 PI2. rewrite PI2.
      assert (X := first_min_filter _ _ _ ND F). rewrite <- PI1 in X. cbn in X.
      destruct E3 as [-> | ->]; cbn; unfold pending1; cbn; rewrite X; reflexivity.
  Qed.

  Lemma pend_exec : forall t0 prog tr s stk, sexec (s_init t0 prog) tr (s, stk) -> PendInv tr s.
  Proof.
    intros t0 prog tr s stk X. remember (s_init t0 prog) as c0. remember (s, stk) as c. revert s stk Heqc.
    induction X as [c|c tr c1 ls c2 X IH ST]; intros s stk E; subst.
    - unfold s_init in *. injection E as <- <-. reflexivity.
    - inversion ST; subst.
      + eapply pend_run; eauto. eapply inv_exec; eauto.
      + rewrite app_nil_r. exact (IH eq_refl s0 stk eq_refl).
      + unfold PendInv. rewrite pending_app. cbn. exact (IH eq_refl s0 stk eq_refl).
  Qed.

  Lemma pick_in : forall s it s' its id ls, tstep s it = (s', its, ls) -> In (EPick id) ls ->
    ls = [EPick id] /\ exists e q, s_queue s = Some (e :: q) /\ id = e_id e /\ is_dead s (e_h e) = false.
  Proof.
    intros s it s' its id ls H HI.
    destruct it as [[[|] ? ? ?|[|] ? ? ?|?|?]|? ?|? ? ?|? ? [?|?|[?|] ?]|? ? [?|?|[?|] ?]|? ? ? [|]|? ? ?|? ? ? [| |?]|[|] ? [?|]| |?|?|? [| |?]|? ?|[|]];
      in_step H HI. split; [reflexivity | eauto].
  Qed.

  Lemma end_in : forall s it s' its w id r ls, tstep s it = (s', its, ls) -> In (EEnd w id r) ls ->
    (exists l2, ls = EEnd w id r :: l2) /\ ((exists e l, it = ILoopRet w e l r /\ id = e_id e) \/ (exists e, it = ITopRet e r /\ w = CT /\ id = e_id e)).
  Proof.
    intros s it s' its w id r ls H HI.
    destruct it as [[[|] ? ? ?|[|] ? ? ?|?|?]|? ?|? ? ?|? ? [?|?|[?|] ?]|? ? [?|?|[?|] ?]|? ? ? [|]|? ? ?|? ? ? [| |?]|[|] ? [?|]| |?|?|? [| |?]|? ?|[|]];
      in_step H HI; eauto 7.
  Qed.

  Lemma first_split : forall (x : sev) l l1 l2, x :: l = l1 ++ x :: l2 -> ~ In x l -> l1 = [].
  Proof.
    intros x l [|y l1] l2 E N; auto. cbn in E. injection E as _ ->. exfalso. apply N. apply in_or_app. right. now left.
  Qed.

  (** The scheduler always picks the earliest, among equals the first submitted. *)
  Theorem pick_min : forall t0 prog tr c a t id b, sexec (s_init t0 prog) tr c -> tr = a ++ (t, EPick id) :: b ->
    exists tp r, first_min (pending a) = Some ((tp, id), r).
  Proof.
    intros t0 prog tr c a t id b X E.
    destruct (locate _ _ _ _ _ _ X _ _ _ _ E) as [(tr0 & s & it & rest & s' & its & l1 & l2 & X0 & H & -> & -> & _) | (h & s & stk & E1 & _)];
      [|discriminate].
    destruct (pick_in _ _ _ _ id _ H) as (E1 & e & q & Q & -> & _); [apply in_or_app; right; now left|].
    symmetry in E1. apply single_split in E1. destruct E1 as [-> _]. cbn. rewrite app_nil_r.
    assert (P := pend_exec _ _ _ _ _ X0). unfold PendInv, qents in P. rewrite Q in P. cbn in P.
    pose proof (first_min_sort (pending tr0)) as FM. destruct (first_min (pending tr0)) as [[y r]|].
    - rewrite FM in P. injection P as <- _. unfold key. eauto.
    - rewrite FM in P. discriminate.
  Qed.

  (** A current_thread task starts only when picked, or when nothing waits; and never
      while another one runs. *)
  Theorem start_order : forall t0 prog tr c a t id b, sexec (s_init t0 prog) tr c -> tr = a ++ (t, EStart CT id) :: b ->
    running a = None /\ (picked a = Some id \/ pending a = []).
  Proof.
    intros t0 prog tr c a t id b X E.
    destruct (locate _ _ _ _ _ _ X _ _ _ _ E) as [(tr0 & s & it & rest & s' & its & l1 & l2 & X0 & H & -> & -> & _) | (h & s & stk & E1 & _)];
      [|discriminate].
    destruct (start_step _ _ _ _ _ _ _ _ _ _ _ H) as (-> & C). cbn. rewrite app_nil_r.
    assert (P := pend_exec _ _ _ _ _ X0). assert (S1 := i_shape _ _ _ (inv_exec _ _ _ _ _ _ _ _ X0)).
    assert (PE : s_queue s = Some [] -> pending tr0 = []).
    { intros Q. unfold PendInv, qents in P. rewrite Q in P. symmetry in P. apply sortw_nil in P. exact P. }
    unfold Shape in S1. destruct (s_queue s) as [q|] eqn:Q.
    - destruct S1 as (pre & mid & post & E1 & HP & _ & HM). destruct pre as [|i pre].
      + destruct mid as [|m mid]; [contradiction HM|]. cbn in E1. injection E1 as <- E2.
        destruct C as [(e & l & -> & ->) | (e & -> & _ & ->)]; cbn in HM.
        * destruct mid; [|contradiction]. rewrite Q in HM. intuition.
        * destruct mid as [|m2 mid]; [contradiction|]. destruct m2; try contradiction. destruct mid; [|contradiction].
          rewrite Q in HM. intuition.
      + cbn in E1. injection E1 as <- _. apply Forall_inv in HP.
        destruct C as [(e & l & -> & _) | (e & -> & _)]; destruct HP as [HP | HP]; cbn in HP; try contradiction; discriminate.
    - destruct S1 as [_ [HF | (e & d & r & E1 & _)]].
      + apply Forall_inv in HF. destruct C as [(e & l & -> & _) | (e & -> & _)]; contradiction.
      + injection E1 as -> _. destruct C as [(? & ? & ? & _) | (? & ? & _)]; discriminate.
  Qed.

  Theorem end_running : forall t0 prog tr c a t id r b, sexec (s_init t0 prog) tr c -> tr = a ++ (t, EEnd CT id r) :: b ->
    running a = Some id.
  Proof.
    intros t0 prog tr c a t id r b X E.
    destruct (locate _ _ _ _ _ _ X _ _ _ _ E) as [(tr0 & s & it & rest & s' & its & l1 & l2 & X0 & H & -> & -> & _) | (h & s & stk & E1 & _)];
      [|discriminate].
    assert (L1 : l1 = []).
    { destruct it as [[[|] ? ? ?|[|] ? ? ?|?|?]|? ?|? ? ?|? ? [?|?|[?|] ?]|? ? [?|?|[?|] ?]|? ? ? [|]|? ? ?|? ? ? [| |?]|[|] ? [?|]| |?|?|? [| |?]|? ?|[|]];
        unfold SchedModel.tstep, ct_defer, handle, sleep_until in H;
        repeat match type of H with
          | context [match ?x with _ => _ end] =>
              lazymatch x with context [match _ with _ => _ end] => fail | _ => destruct x eqn:? end;
              cbn [fst snd loop_cond] in H; try discriminate
        end; injection H as _ _ EL; destruct l1 as [|? [|? [|? ?]]]; cbn in EL; try discriminate; reflexivity. }
    subst l1. destruct (end_in _ _ _ _ CT id r _ H) as (_ & C); [now left|]. cbn. rewrite app_nil_r.
    assert (S1 := i_shape _ _ _ (inv_exec _ _ _ _ _ _ _ _ X0)).
    unfold Shape in S1. destruct (s_queue s) as [q|] eqn:Q.
    - destruct S1 as (pre & mid & post & E1 & HP & _ & HM). destruct pre as [|i pre].
      + destruct mid as [|m mid]; [contradiction HM|]. cbn in E1. injection E1 as <- E2.
        destruct C as [(e & l & -> & ->) | (e & -> & _ & ->)]; cbn in HM.
        * destruct mid; [|contradiction]. exact HM.
        * destruct mid as [|m2 mid]; [contradiction|]. destruct m2; try contradiction. destruct mid; [|contradiction]. exact HM.
      + cbn in E1. injection E1 as <- _. apply Forall_inv in HP.
        destruct C as [(e & l & -> & _) | (e & -> & _)]; destruct HP as [HP | HP]; cbn in HP; try contradiction; discriminate.
    - destruct S1 as [_ [HF | (e & d & r0 & E1 & _)]].
      + apply Forall_inv in HF. destruct C as [(e & l & -> & _) | (e & -> & _)]; contradiction.
      + injection E1 as -> _. destruct C as [(? & ? & ? & _) | (? & ? & _)]; discriminate.
  Qed.

  Lemma fins_finished : forall tr id, In id (fins tr) -> finished_in tr id.
  Proof.
    intros tr id H. unfold fins, evs in H. apply in_flat_map in H. destruct H as (e & H1 & H2).
    apply in_map_iff in H1. destruct H1 as ((t & e') & E & H1). cbn in E. subst e'. exists t.
    destruct e as [| | | | | |? ? [| |]| | | |]; cbn in H2; try contradiction; destruct H2 as [<- | []]; eauto.
  Qed.
  Lemma finished_fins : forall tr id, finished_in tr id -> In id (fins tr).
  Proof.
    intros tr id (t & H). unfold fins, evs. apply in_flat_map.
    destruct H as [H | (w & [H | H])]; (eexists; split; [apply in_map_iff; eexists; split; [|exact H]; reflexivity | cbn; auto]).
  Qed.
  Lemma called_lt : forall t0 prog tr s stk w id, sexec (s_init t0 prog) tr (s, stk) -> called_in tr w id -> (id < s_next s)%nat.
  Proof.
    intros t0 prog tr s stk w id X (t & h & k & x & H). apply (i_old _ _ _ (inv_exec _ _ _ _ _ _ _ _ X)).
    unfold alls, evs. apply in_flat_map.
    destruct H as [H | H]; (eexists; split; [apply in_map_iff; eexists; split; [|exact H]; reflexivity | cbn; auto]).
  Qed.

  (** Control is back in the program outside: every task is over. *)
  Theorem returned_all : forall t0 prog tr s rest w id, sexec (s_init t0 prog) tr (s, map IAct rest) -> called_in tr w id ->
    finished_in tr id.
  Proof.
    intros t0 prog tr s rest w id X C. assert (L := called_lt _ _ _ _ _ _ _ X C).
    assert (I0 := inv_exec _ _ _ _ _ _ _ _ X). apply fins_finished.
    destruct (i_all _ _ _ I0 id L) as [H | H]; auto. exfalso.
    unfold held in H. rewrite sents_acts in H. cbn in H.
    assert (S1 := i_shape _ _ _ I0). unfold Shape, qents in *. destruct (s_queue s) as [q|] eqn:Q; [|contradiction].
    destruct S1 as (pre & mid & post & E & _ & _ & HM).
    assert (F : Forall (fun it => match it with IAct _ => True | _ => False end) mid).
    { apply Forall_forall. intros i Hi. assert (Hi' : In i (map IAct rest)) by (rewrite E; apply in_or_app; right; apply in_or_app; auto).
      apply in_map_iff in Hi'. destruct Hi' as (? & <- & _). exact I. }
    destruct mid as [|m mid]; [contradiction|]. apply Forall_inv in F. destruct m; contradiction.
  Qed.

  (** A task that is over never starts again. *)
  Theorem finished_no_start : forall t0 prog tr c a t w id b, sexec (s_init t0 prog) tr c -> tr = a ++ (t, EStart w id) :: b ->
    ~ finished_in a id.
  Proof.
    intros t0 prog tr c a t w id b X E F.
    destruct (locate _ _ _ _ _ _ X _ _ _ _ E) as [(tr0 & s & it & rest & s' & its & l1 & l2 & X0 & H & -> & -> & _) | (h & s & stk & E1 & _)];
      [|discriminate].
    destruct (start_step _ _ _ _ _ _ _ _ _ _ _ H) as (-> & C). cbn in F. rewrite app_nil_r in F. apply finished_fins in F.
    assert (I0 := inv_exec _ _ _ _ _ _ _ _ X0).
    assert (W : In id (held s (it :: rest))).
    { unfold held. destruct C as [(e & l & -> & ->) | (e & -> & _ & ->)]; cbn; auto. }
    apply (i_live _ _ _ I0) in W. tauto.
  Qed.
End Order.
