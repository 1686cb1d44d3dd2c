(** Sources: invariants. *)
From Coq Require Import ZArith.
From Verif Require Import Base Machine MachineProofs Concur SrcSpec SrcModel.

Section SrcP.
  Context {A : Type} (D : machine A) (L : lawful D).
  Notation item := (item A). Notation source := (source A).

  (** The events still to come; of an interval those below N. *)
  Fixpoint sevs (N : nat) (s : source) : list (ev A) :=
    match s with
    | FromImm l | FromSched l => elements l
    | Empty => [Done] | Never => [] | Error e => [Err e]
    | Interval mk t p => map (fun n => Next (mk n)) (seq 0 N)
    | SubscribeOn s => sevs N s
    end.
  Definition plan (N : nat) (i : item) : list (ev A) :=
    match i with
    | IKill => []
    | ISub s | IPickSub s => sevs N s
    | IIter l i => elements l
    | IChk v r i | INext v r i => Next v :: elements r
    | IEv e => [e]
    | IPick l i | ICall l i => elements (skipn i l)
    | ISend v l i => Next v :: elements (skipn (S i) l)
    | IMore l i => elements (skipn (S i) l)
    | ITick mk t p n | ITickRun mk t p n => map (fun n => Next (mk n)) (seq n (N - n))
    end.
  Definition bound (i : item) : nat := match i with ITick _ _ _ n | ITickRun _ _ _ n => n | _ => 0 end.

  Lemma skipn_nth : forall (l : list (res A)) i x, nth_error l i = Some x -> skipn i l = x :: skipn (S i) l.
  Proof. induction l as [|y l IH]; intros [|i] x H; cbn in *; try discriminate; [congruence|]. now apply IH. Qed.

  Definition killed (tr : list slab) : bool := existsb is_kill tr.

  (** Progress of reading: how many elements were read, and for the next item whether reading
      will happen without a check. *)
  Definition rd (i : item) : nat :=
    match i with IIter _ i | IPick _ i | ICall _ i => i | IChk _ _ i | INext _ _ i | ISend _ _ i | IMore _ i => S i | _ => 0 end.

  Record K (s0 : source) (d0 d : mst D) (t0 : list item) (tr : list slab) (dn : list (ev A)) : Prop := MkK {
    k_st : if killed tr then exists n, d = mkill D (mrun D d0 (firstn n dn)) else d = mrun D d0 dn;
    k_plan : match t0 with
             | [it] => forall N, bound it <= N -> dn ++ plan N it = sevs N s0
             | [] => exists N0, forall N, N0 <= N -> exists r, dn ++ r = sevs N s0 /\ (r <> [] -> mdisp D d = true)
             | _ => False
             end
  }.

  Lemma mrun1 : forall d l e, mstep D (mrun D d l) e = mrun D d (l ++ [e]).
  Proof. intros. now rewrite mrun_app. Qed.

  Lemma K_ev : forall tr (d0 d : mst D) dn e,
    (if killed tr then exists n, d = mkill D (mrun D d0 (firstn n dn)) else d = mrun D d0 dn) ->
    if killed tr then exists n, mstep D d e = mkill D (mrun D d0 (firstn n (dn ++ [e]))) else mstep D d e = mrun D d0 (dn ++ [e]).
  Proof.
    intros tr d0 d dn e H. destruct (killed tr).
    - destruct H as (n & ->). exists (min n (length dn)). rewrite firstn_app.
      replace (min n (length dn) - length dn) with 0 by lia. cbn [firstn]. rewrite app_nil_r.
      replace (firstn (min n (length dn)) dn) with (firstn n dn).
      + apply (law_dead _ L). apply (law_kill _ L).
      + destruct (Nat.le_ge_cases n (length dn)); [now rewrite min_l|]. now rewrite min_r, firstn_all, firstn_all2 by lia.
    - subst. apply mrun1.
  Qed.

  Lemma killed_app : forall a b, killed (a ++ b) = killed a || killed b.
  Proof. intros. apply existsb_app. Qed.

  Lemma K_src : forall s0 d0 d it rest tr dn d' its ls, K s0 d0 d (it :: rest) tr dn -> it <> IKill ->
    sstep D d it = Some (d', its, ls) -> exists dn', K s0 d0 d' (its ++ rest) (tr ++ ls) dn'.
  Proof.
    intros s0 d0 d it rest tr dn d' its ls [ST PL] NK Q. destruct rest; [|destruct PL]. rewrite app_nil_r.
    assert (QK : killed (tr ++ ls) = killed tr).
    { rewrite killed_app. assert (Z : killed ls = false); [|now rewrite Z, orb_false_r].
      destruct it as [|[]|[|[] ?]| | | | |l i| |l i| | |]; cbn [sstep] in Q; try contradiction; try (destruct (mdisp D d)); try (destruct (nth_error l i) as [[]|]); try (destruct (_ <? _)); inversion Q; reflexivity. }
    (* steps that change nothing *)
    assert (SAME : forall it', d' = d -> its = [it'] -> (forall N, bound it <= N -> bound it' <= N -> plan N it' = plan N it) -> (forall N, bound it' <= N -> bound it <= N) -> exists dn', K s0 d0 d' its (tr ++ ls) dn').
    { intros it' -> -> E B. exists dn. split; [now rewrite QK|]. intros N H. rewrite E; auto. }
    assert (STOP : d' = d -> its = [] -> mdisp D d = true -> exists dn', K s0 d0 d' its (tr ++ ls) dn').
    { intros -> -> M. exists dn. split; [now rewrite QK|]. exists (bound it). intros N H. eauto. }
    (* steps that deliver e *)
    assert (SEND : forall e it', d' = mstep D d e -> its = [it'] -> (forall N, bound it' <= N -> bound it <= N /\ plan N it = e :: plan N it') -> exists dn', K s0 d0 d' its (tr ++ ls) dn').
    { intros e it' -> -> E. exists (dn ++ [e]). split; [rewrite QK; now apply K_ev|]. intros N H. destruct (E N H) as (H1 & H2).
      rewrite <- app_assoc. cbn [app]. rewrite <- H2. auto. }
    assert (LAST : forall e, d' = mstep D d e -> its = [] -> (forall N, plan N it = [e]) -> exists dn', K s0 d0 d' its (tr ++ ls) dn').
    { intros e -> -> E. exists (dn ++ [e]). split; [rewrite QK; now apply K_ev|]. exists (bound it). intros N H. exists []. rewrite app_nil_r. split; [|congruence].
      rewrite <- (PL N H), E. reflexivity. }
    destruct it as [|[l|l| | |e|mk t p|s]|[|[v|e] l] i|v l i|v l i|e|l i|l i|v l i|l i|mk t p n|mk t p n|s]; cbn [sstep] in Q; try contradiction.
    - inversion Q; subst. eapply SAME; eauto. 
    - inversion Q; subst. eapply SAME; eauto.
    - inversion Q; subst. eapply SAME; eauto.
    - inversion Q; subst. exists dn. split; [now rewrite QK|]. exists 0. intros N H. exists []. split; [now apply (PL N)|congruence].
    - inversion Q; subst. eapply SAME; eauto.
    - inversion Q; subst. eapply SAME; eauto. intros N _ _. cbn. now rewrite Nat.sub_0_r.
    - inversion Q; subst. eapply SAME; eauto.
    - inversion Q; subst. eapply SAME; eauto.
    - inversion Q; subst. eapply SAME; eauto.
    - inversion Q; subst. eapply SAME; eauto.
    - destruct (mdisp D d) eqn:M; inversion Q; subst; [now apply STOP|eapply SAME; eauto].
    - inversion Q; subst. eapply SEND; eauto.
    - inversion Q; subst. eapply LAST; eauto.
    - destruct (mdisp D d) eqn:M; inversion Q; subst; [now apply STOP|eapply SAME; eauto].
    - destruct (nth_error l i) as [[v|e]|] eqn:E; inversion Q; subst; eapply SAME; eauto; intros N _ _; cbn [plan].
      + now rewrite (skipn_nth _ _ _ E).
      + now rewrite (skipn_nth _ _ _ E).
      + rewrite skipn_all2; auto. now apply nth_error_None.
    - inversion Q; subst. eapply SEND; eauto.
    - destruct (S i <? length l) eqn:E; inversion Q; subst; eapply SAME; eauto. intros N _ _. cbn [plan]. rewrite skipn_all2; auto. now apply Nat.ltb_ge.
    - destruct (mdisp D d) eqn:M; inversion Q; subst; [now apply STOP|eapply SAME; eauto].
    - inversion Q; subst. eapply SEND; eauto. intros N H. cbn in H. split; [cbn; lia|]. cbn [plan].
      replace (N - n) with (S (N - S n)) by lia. reflexivity.
    - destruct (mdisp D d) eqn:M; inversion Q; subst; [now apply STOP|eapply SAME; eauto].
  Qed.

  Lemma K_kill : forall s0 d0 d t0 tr dn, K s0 d0 d t0 tr dn -> K s0 d0 (mkill D d) t0 (tr ++ [LKill]) dn.
  Proof.
    intros s0 d0 d t0 tr dn [ST PL]. split.
    - rewrite killed_app, orb_true_r. destruct (killed tr).
      + destruct ST as (n & ->). exists n. apply (law_kill_dead _ L). apply (law_kill _ L).
      + subst. exists (length dn). now rewrite firstn_all.
    - destruct t0 as [|it [|]]; auto. destruct PL as (N0 & PL). exists N0. intros N H. destruct (PL N H) as (r & R1 & R2). exists r. split; auto.
      intros _. apply (law_kill _ L).
  Qed.

  (** Only kills in the other threads. *)
  Definition kills (gs : list (list item)) : Prop := forall t, In t gs -> forall i, In i t -> i = IKill.
  Definition nokill (t : list item) : Prop := forall i, In i t -> i <> IKill.
  Lemma sstep_nokill : forall d it d' its ls, sstep D d it = Some (d', its, ls) -> nokill its.
  Proof.
    intros d it d' its ls Q i I.
    destruct it as [|[]|[|[] ?]| | | | |l j| |l j| | |]; cbn [sstep] in Q; try (destruct (mdisp D d)); try (destruct (nth_error l j) as [[]|]); try (destruct (_ <? _)); inversion Q; subst; cbn in I; try contradiction; destruct I as [<-|[]]; discriminate.
  Qed.

  (** Any invariant of the source's thread and the kills. *)
  Lemma src_inv : forall (P : mst D -> list item -> list slab -> Prop),
    (forall d it rest tr d' its ls, it <> IKill -> P d (it :: rest) tr -> sstep D d it = Some (d', its, ls) -> P d' (its ++ rest) (tr ++ ls)) ->
    (forall d t0 tr, P d t0 tr -> P (mkill D d) t0 (tr ++ [LKill])) ->
    forall s d0 k tr c, P d0 [ISub s] [] -> gexec (sstep D) (src_start D s d0 k) tr c ->
    exists t0 gs, snd c = t0 :: gs /\ P (fst c) t0 tr.
  Proof.
    intros P PS PK s d0 k tr c P0 E.
    cut (exists t0 gs, snd c = t0 :: gs /\ P (fst c) t0 tr /\ nokill t0 /\ kills gs).
    { intros (t0 & gs & H1 & H2 & _). eauto. }
    refine (gexec_tinv (sstep D) (fun d ts tr => exists t0 gs, ts = t0 :: gs /\ P d t0 tr /\ nokill t0 /\ kills gs) _ _ _ _ E _).
    - intros d ts1 it rest ts2 tr' d' its ls (t0 & gs & T & PP & NK & KS) Q. destruct ts1 as [|t1 ts1]; cbn [app] in T; inversion T; subst.
      + exists (its ++ rest), gs. split; auto. split; [|split; auto].
        * eapply PS; eauto. apply NK. now left.
        * intros i I. apply in_app_or in I as [I|I]; [now apply (sstep_nokill _ _ _ _ _ Q)|]. apply NK. now right.
      + exists t0, (ts1 ++ (its ++ rest) :: ts2). split; auto.
        assert (it = IKill) as ->. { apply (KS (it :: rest)); [apply in_or_app; right; now left|now left]. }
        cbn in Q. inversion Q; subst. split; [now apply PK|]. split; auto.
        intros t I i Hi. apply in_app_or in I as [I|[<-|I]].
        * apply (KS t); auto. apply in_or_app. auto.
        * apply (KS (IKill :: rest)); [apply in_or_app; right; now left|now right].
        * apply (KS t); auto. apply in_or_app. right. now right.
    - cbn. exists [ISub s], (repeat [IKill] k). split; auto. split; auto. split.
      + intros i [<-|[]]. discriminate.
      + intros t T i I. apply repeat_spec in T. subst. destruct I as [<-|[]]; auto.
  Qed.

  Lemma src_K : forall s d0 k tr c, gexec (sstep D) (src_start D s d0 k) tr c ->
    exists t0 gs dn, snd c = t0 :: gs /\ K s d0 (fst c) t0 tr dn.
  Proof.
    intros s d0 k tr c E.
    destruct (src_inv (fun d t0 tr => exists dn, K s d0 d t0 tr dn)) with (s := s) (d0 := d0) (k := k) (tr := tr) (c := c) as (t0 & gs & T & dn & KK); auto.
    - intros d it rest tr' d' its ls NK (dn & KK) Q. eapply K_src; eauto.
    - intros d t0 tr' (dn & KK). exists dn. now apply K_kill.
    - exists []. split; [reflexivity|]. intros N _. reflexivity.
    - eauto 10.
  Qed.

  (** Reads and ticks. *)
  Fixpoint strip (s : source) : source := match s with SubscribeOn s => strip s | _ => s end.
  Definition from (s : source) (l : list (res A)) : Prop := strip s = FromImm l \/ strip s = FromSched l.

  (** After the observer is disposed: how many reads or ticks may still come. *)
  Definition left_over (d : mst D) (t0 : list item) : nat :=
    match t0 with
    | [IIter _ _] | [ICall _ _] | [ITickRun _ _ _ _] => 1
    | [ISub (FromImm _)] => 1
    | [INext _ _ _] => if mdisp D d then 1 else 2
    | _ => 0
    end.

  Definition is_work (l : slab) : bool := is_get l || is_tick l.
  Definition work (tr : list slab) : nat := length (filter is_work tr).
  Lemma work_app : forall a b, work (a ++ b) = work a + work b.
  Proof. intros. unfold work. now rewrite filter_app, app_length. Qed.
  Lemma gets_work : forall tr, gets tr <= work tr.
  Proof. induction tr as [|[| |] tr IH]; unfold gets, work in *; cbn; lia. Qed.

  Definition after (d : mst D) (t0 : list item) (tr : list slab) : Prop :=
    forall a b, tr = a ++ LKill :: b -> mdisp D d = true /\ work b + left_over d t0 <= 1.

  Lemma left_step : forall d it d' its ls, mdisp D d = true -> it <> IKill -> sstep D d it = Some (d', its, ls) ->
    mdisp D d' = true /\ work ls + left_over d' its <= left_over d [it] /\ ~ In LKill ls.
  Proof.
    intros d it d' its ls M NK Q.
    destruct it as [|[l|l| | |e|mk t p|s]|[|[v|e] l] i|v l i|v l i|e|l i|l i|v l i|l i|mk t p n|mk t p n|s]; cbn [sstep] in Q; try contradiction;
      rewrite ?M in Q; try (destruct (nth_error l i) as [[]|]); try (destruct (_ <? _)); inversion Q; subst; cbn [left_over]; rewrite ?(law_dead _ L) by auto; rewrite ?M; cbn; repeat split; auto; try lia; intros [|[]]; discriminate.
  Qed.
  Lemma step_nokill : forall d it d' its ls, it <> IKill -> sstep D d it = Some (d', its, ls) -> ~ In LKill ls.
  Proof.
    intros d it d' its ls NK Q.
    destruct it as [|[l|l| | |e|mk t p|s]|[|[v|e] l] i|v l i|v l i|e|l i|l i|v l i|l i|mk t p n|mk t p n|s]; cbn [sstep] in Q; try contradiction;
      try (destruct (mdisp D d)); try (destruct (nth_error l i) as [[]|]); try (destruct (_ <? _)); inversion Q; subst; cbn; intuition congruence.
  Qed.
  Lemma split_kill : forall (tr ls a b : list slab), ~ In LKill ls -> tr ++ ls = a ++ LKill :: b -> exists b1, tr = a ++ LKill :: b1 /\ b = b1 ++ ls.
  Proof.
    induction tr as [|x tr IH]; intros ls a b N H; cbn in H.
    - destruct N. rewrite H. apply in_or_app. right. now left.
    - destruct a as [|y a]; cbn in H; inversion H; subst.
      + exists tr. auto.
      + destruct (IH ls a b N) as (b1 & -> & ->); auto. exists b1. auto.
  Qed.
  Lemma left_le : forall d t0, mdisp D d = true -> left_over d t0 <= 1.
  Proof. intros d [|[|[]| | | | | | | | | | |] []] M; cbn; auto. rewrite M. auto. Qed.

  (** A thread has at most one item. *)
  Lemma src_after : forall s d0 k tr c, gexec (sstep D) (src_start D s d0 k) tr c ->
    exists t0 gs, snd c = t0 :: gs /\ after (fst c) t0 tr.
  Proof.
    intros s d0 k tr c E.
    destruct (src_inv (fun d t0 tr => length t0 <= 1 /\ after d t0 tr)) with (s := s) (d0 := d0) (k := k) (tr := tr) (c := c) as (t0 & gs & T & _ & AF); eauto.
    - intros d it rest tr' d' its ls NK (LE & AF) Q. assert (rest = []) as -> by (destruct rest; auto; cbn in LE; lia). rewrite app_nil_r. split.
      + clear AF. destruct it as [|[l|l| | |e|mk t p|z]|[|[v|e] l] i|v l i|v l i|e|l i|l i|v l i|l i|mk t p n|mk t p n|z]; cbn [sstep] in Q; try contradiction;
          try (destruct (mdisp D d)); try (destruct (nth_error l i) as [[]|]); try (destruct (_ <? _)); inversion Q; subst; cbn; lia.
      + intros a b AB. destruct (split_kill _ _ _ _ (step_nokill _ _ _ _ _ NK Q) AB) as (b1 & -> & ->).
        destruct (AF a b1 eq_refl) as (M & W). destruct (left_step _ _ _ _ _ M NK Q) as (M' & W' & _). split; auto. rewrite work_app. lia.
    - intros d t0 tr' (LE & AF). split; auto. intros a b AB. split; [apply (law_kill _ L)|].
      destruct b as [|x b] using rev_ind; [cbn; apply left_le; apply (law_kill _ L)|].
      rewrite app_comm_cons, app_assoc in AB. apply app_inj_tail in AB as (-> & <-). destruct (AF a b eq_refl) as (M & W).
      rewrite (law_kill_dead _ L) by auto. rewrite work_app. cbn. lia.
    - split; auto. intros a b AB. destruct a; discriminate.
  Qed.

  (** Containers: the reads, in order. *)
  Definition lag_of (s : source) : nat := match strip s with FromImm _ => 1 | _ => 0 end.
  Definition allowed (lag : nat) (d0 : mst D) (evs : list (ev A)) (m : nat) : Prop :=
    forall i, i < m -> lag <= i -> mdisp D (mrun D d0 (firstn (i - lag) evs)) = false.
  Definition rinv (s : source) (l : list (res A)) (d0 d : mst D) (t0 : list item) (tr : list slab) : Prop :=
    filter is_get tr = map LGet (seq 0 (gets tr)) /\
    allowed (lag_of s) d0 (elements l) (gets tr) /\
    match t0 with
    | [it] => exists pre, pre ++ plan 0 it = elements l /\ (killed tr = false -> d = mrun D d0 pre) /\
        (mdisp D d = false -> killed tr = false) /\
        match it with
        | ISub s' | IPickSub s' => gets tr = 0 /\ strip s' = strip s /\ pre = []
        | IIter _ i => lag_of s = 1 /\ gets tr = i /\ length pre = i /\ allowed 1 d0 (elements l) (S i)
        | IChk _ _ i => lag_of s = 1 /\ gets tr = S i /\ length pre = i
        | INext _ _ i => lag_of s = 1 /\ gets tr = S i /\ length pre = i /\ allowed 1 d0 (elements l) (S (S i))
        | IPick _ i => lag_of s = 0 /\ gets tr = i /\ length pre = i
        | ICall _ i => lag_of s = 0 /\ gets tr = i /\ length pre = i /\ allowed 0 d0 (elements l) (S i)
        | ISend _ _ i => lag_of s = 0 /\ gets tr = S i /\ length pre = i
        | IMore _ i => lag_of s = 0 /\ gets tr = S i /\ length pre = S i
        | IEv _ => True
        | _ => False
        end
    | [] => True
    | _ => False
    end.

  Lemma gets_app : forall a b, gets (a ++ b) = gets a + gets b.
  Proof. intros. unfold gets. now rewrite filter_app, app_length. Qed.
  Lemma pre_first : forall (pre r evs : list (ev A)), pre ++ r = evs -> firstn (length pre) evs = pre.
  Proof. intros pre r evs <-. rewrite firstn_app, Nat.sub_diag, firstn_all. cbn. apply app_nil_r. Qed.
  Lemma allowed_S : forall lag d0 evs m, allowed lag d0 evs m -> (lag <= m -> mdisp D (mrun D d0 (firstn (m - lag) evs)) = false) -> allowed lag d0 evs (S m).
  Proof. intros lag d0 evs m H1 H2 i I1 I2. destruct (Nat.eq_dec i m) as [->|]; auto. apply H1; lia. Qed.

  Lemma rinv_src : forall s l d0 d it rest tr d' its ls, from s l -> it <> IKill -> rinv s l d0 d (it :: rest) tr ->
    sstep D d it = Some (d', its, ls) -> rinv s l d0 d' (its ++ rest) (tr ++ ls).
  Proof.
    intros s l d0 d it rest tr d' its ls FR NK (O & AL & R) Q. destruct rest; [|destruct R]. rewrite app_nil_r.
    destruct R as (pre & PL & DD & KD & R).
    assert (QK : killed (tr ++ ls) = killed tr).
    { rewrite killed_app. pose proof (step_nokill _ _ _ _ _ NK Q) as NL. destruct (killed ls) eqn:Z; [|apply orb_false_r]. exfalso.
      unfold killed in Z. apply existsb_exists in Z as ([] & I & ?); try discriminate. contradiction. }
    assert (QUIET : ls = [] -> filter is_get (tr ++ ls) = map LGet (seq 0 (gets (tr ++ ls))) /\ gets (tr ++ ls) = gets tr) by (intros ->; now rewrite app_nil_r).
    assert (READ : ls = [LGet (gets tr)] -> filter is_get (tr ++ ls) = map LGet (seq 0 (gets (tr ++ ls))) /\ gets (tr ++ ls) = S (gets tr)).
    { intros ->. rewrite filter_app, gets_app, O. change (gets [LGet (gets tr)]) with 1. rewrite Nat.add_1_r, seq_S, map_app. auto. }
    assert (PF : mdisp D d = false -> mdisp D (mrun D d0 (firstn (length pre) (elements l))) = false).
    { intro M. rewrite (pre_first _ _ _ PL). rewrite <- DD; auto. }
    assert (DEAD : forall e, mdisp D (mstep D d e) = false -> mdisp D d = false).
    { intros e H. destruct (mdisp D d) eqn:M; auto. rewrite (law_dead _ L) in H by auto. congruence. }
    unfold rinv. destruct it as [|z|[|[v|e] l'] i|v l' i|v l' i|e|l' i|l' i|v l' i|l' i|mk t p n|mk t p n|z]; cbn [sstep] in Q; try contradiction.
    - destruct R as (G0 & SZ & ->). destruct z as [l1|l1| | |e|mk t p|z]; cbn [strip] in SZ; try (exfalso; destruct FR as [FR|FR]; congruence);
        inversion Q; subst d' its ls; destruct (QUIET eq_refl) as (O' & G'); rewrite QK, G'; (split; [rewrite <- G'; exact O'|]); (split; [exact AL|]); exists [].
      + assert (LG : lag_of s = 1) by (unfold lag_of; now rewrite <- SZ). cbn [plan sevs] in *. repeat (split; auto). intros i I1 I2. lia.
      + assert (LG : lag_of s = 0) by (unfold lag_of; now rewrite <- SZ). cbn [plan sevs skipn] in *. repeat (split; auto).
      + cbn [plan sevs] in *. repeat (split; auto).
    - destruct R as (LG & G0 & LP & AW). inversion Q; subst d' its ls. destruct (QUIET eq_refl) as (O' & G'). rewrite QK, G'.
      split; [rewrite <- G'; exact O'|]. split; [exact AL|]. exists pre. repeat (split; auto).
    - destruct R as (LG & G0 & LP & AW). inversion Q; subst d' its ls. subst i. destruct (READ eq_refl) as (O' & G'). rewrite QK, G'.
      split; [rewrite <- G'; exact O'|]. split; [rewrite LG; exact AW|]. exists pre. repeat (split; auto).
    - destruct R as (LG & G0 & LP & AW). inversion Q; subst d' its ls. subst i. destruct (READ eq_refl) as (O' & G'). rewrite QK, G'.
      split; [rewrite <- G'; exact O'|]. split; [rewrite LG; exact AW|]. exists pre. repeat (split; auto).
    - destruct R as (LG & G0 & LP). destruct (mdisp D d) eqn:M; inversion Q; subst d' its ls; destruct (QUIET eq_refl) as (O' & G'); rewrite ?QK, G';
        (split; [rewrite <- G'; exact O'|]); (split; [exact AL|]); auto.
      exists pre. repeat (split; auto). rewrite <- G0. apply allowed_S; [rewrite <- LG; exact AL|]. intros _.
      rewrite G0. replace (S i - 1) with (length pre) by lia. auto.
    - destruct R as (LG & G0 & LP & AW). inversion Q; subst d' its ls. destruct (QUIET eq_refl) as (O' & G'). rewrite QK, G'.
      split; [rewrite <- G'; exact O'|]. split; [exact AL|]. exists (pre ++ [Next v]). rewrite app_length, LP, <- app_assoc. cbn [length plan app] in *.
      rewrite Nat.add_1_r. repeat (split; auto).
      + intro KF. rewrite (DD KF). apply mrun1.
      + eauto.
    - inversion Q; subst d' its ls. destruct (QUIET eq_refl) as (O' & G'). rewrite G'. split; [rewrite <- G'; exact O'|]. split; auto.
    - destruct R as (LG & G0 & LP). destruct (mdisp D d) eqn:M; inversion Q; subst d' its ls; destruct (QUIET eq_refl) as (O' & G'); rewrite ?QK, G';
        (split; [rewrite <- G'; exact O'|]); (split; [exact AL|]); auto.
      exists pre. repeat (split; auto). rewrite <- G0. apply allowed_S; [rewrite <- LG; exact AL|]. intros _.
      rewrite G0, Nat.sub_0_r, <- LP. auto.
    - destruct R as (LG & G0 & LP & AW). destruct (nth_error l' i) as [[v|e]|] eqn:E; inversion Q; subst d' its ls; cbn [plan] in PL.
      + subst i. destruct (READ eq_refl) as (O' & G'). rewrite QK, G'. split; [rewrite <- G'; exact O'|]. split; [rewrite LG; exact AW|].
        rewrite (skipn_nth _ _ _ E) in PL. exists pre. repeat (split; auto).
      + subst i. destruct (READ eq_refl) as (O' & G'). rewrite QK, G'. split; [rewrite <- G'; exact O'|]. split; [rewrite LG; exact AW|].
        rewrite (skipn_nth _ _ _ E) in PL. exists pre. repeat (split; auto).
      + destruct (QUIET eq_refl) as (O' & G'). rewrite QK, G'. split; [rewrite <- G'; exact O'|]. split; auto.
        apply nth_error_None in E. rewrite skipn_all2 in PL by auto. exists pre. repeat (split; auto).
    - destruct R as (LG & G0 & LP). inversion Q; subst d' its ls. destruct (QUIET eq_refl) as (O' & G'). rewrite QK, G'.
      split; [rewrite <- G'; exact O'|]. split; [exact AL|]. exists (pre ++ [Next v]). rewrite app_length, LP, <- app_assoc. cbn [length plan app] in *.
      rewrite Nat.add_1_r. repeat (split; auto).
      + intro KF. rewrite (DD KF). apply mrun1.
      + eauto.
    - destruct R as (LG & G0 & LP). destruct (S i <? length l') eqn:E; inversion Q; subst d' its ls; destruct (QUIET eq_refl) as (O' & G'); rewrite ?QK, G';
        (split; [rewrite <- G'; exact O'|]); (split; [exact AL|]); exists pre; repeat (split; auto).
      apply Nat.ltb_ge in E. cbn [plan] in *. rewrite skipn_all2 in PL by auto. exact PL.
    - destruct R as (G0 & SZ & ->). destruct (mdisp D d) eqn:M; inversion Q; subst d' its ls; destruct (QUIET eq_refl) as (O' & G'); rewrite ?QK, G';
        (split; [rewrite <- G'; exact O'|]); (split; [exact AL|]); auto. exists []. repeat (split; auto).
  Qed.

  Lemma src_reads : forall s l d0 k tr c, from s l -> gexec (sstep D) (src_start D s d0 k) tr c ->
    filter is_get tr = map LGet (seq 0 (gets tr)) /\ allowed (lag_of s) d0 (elements l) (gets tr).
  Proof.
    intros s l d0 k tr c FR E.
    destruct (src_inv (fun d t0 tr => rinv s l d0 d t0 tr)) with (s := s) (d0 := d0) (k := k) (tr := tr) (c := c) as (t0 & gs & T & O & AL & _); auto.
    - intros. eapply rinv_src; eauto.
    - intros d t0 tr' (O & AL & R). unfold rinv. rewrite filter_app, gets_app. cbn [filter is_get gets length]. rewrite app_nil_r, Nat.add_0_r.
      split; auto. split; auto. destruct t0 as [|it [|]]; auto. destruct R as (pre & PL & DD & KD & R). exists pre. split; auto.
      rewrite killed_app, orb_true_r. split; [discriminate|]. rewrite (law_kill _ L). split; [discriminate|]. destruct it; auto.
    - split; auto. split; [intros i I1 I2; cbn in I1; lia|]. exists []. cbn [app plan]. repeat (split; auto).
      clear E. induction s as [| | | | | |z IH]; cbn in *; try (destruct FR as [FR|FR]; cbn in FR; congruence). apply IH. exact FR.
  Qed.

  (** Intervals: the ticks. *)
  Definition tinv (s : source) (mk : nat -> A) (t p : Z) (d : mst D) (t0 : list item) (tr : list slab) : Prop :=
    exists n, ticks tr = map (fun i => LTick (t + Z.of_nat i * p)%Z i) (seq 0 n) /\
    match t0 with
    | [ISub s'] | [IPickSub s'] => n = 0 /\ strip s' = Interval mk t p
    | [ITick mk' t' p' n'] | [ITickRun mk' t' p' n'] => n' = n /\ mk' = mk /\ p' = p /\ t' = (t + Z.of_nat n * p)%Z
    | [] => mdisp D d = true
    | _ => False
    end.
  Lemma src_ticks : forall s mk t p d0 k tr c, strip s = Interval mk t p -> gexec (sstep D) (src_start D s d0 k) tr c ->
    exists t0 gs n, snd c = t0 :: gs /\ ticks tr = map (fun i => LTick (t + Z.of_nat i * p)%Z i) (seq 0 n) /\ (t0 = [] -> mdisp D (fst c) = true).
  Proof.
    intros s mk t p d0 k tr c SI E.
    destruct (src_inv (fun d t0 tr => tinv s mk t p d t0 tr)) with (s := s) (d0 := d0) (k := k) (tr := tr) (c := c) as (t0 & gs & T & n & O & R); auto.
    - intros d it rest tr' d' its ls NK (n & O & R) Q. unfold tinv. destruct rest; [rewrite app_nil_r|destruct it; destruct R].
      assert (QUIET : ls = [] -> ticks (tr' ++ ls) = ticks tr') by (intros ->; now rewrite app_nil_r).
      destruct it as [|z| | | | | | | | |mk' t' p' n'|mk' t' p' n'|z]; try destruct R; cbn [sstep] in Q.
      + subst n. destruct z; cbn [strip] in H0; try discriminate; inversion Q; subst d' its ls; rewrite QUIET by auto; exists 0; split; auto.
        inversion H0; subst. repeat split; auto. cbn. lia.
      + exists n. destruct (mdisp D d) eqn:M; inversion Q; subst d' its ls; rewrite QUIET by auto; auto.
      + destruct H0 as (-> & -> & ->). inversion Q; subst d' its ls n'. exists (S n). unfold ticks in *. rewrite filter_app, O, seq_S, map_app. split; auto.
        repeat split; auto. lia.
      + subst n. exists 0. destruct (mdisp D d) eqn:M; inversion Q; subst d' its ls; rewrite QUIET by auto; auto.
    - intros d t0 tr' (n & O & R). exists n. unfold ticks in *. rewrite filter_app, O. cbn. rewrite app_nil_r. split; auto.
      destruct t0 as [|[] []]; auto. apply (law_kill _ L).
    - exists 0. cbn. auto.
    - exists t0, gs, n. split; auto. split; auto. intros ->. exact R.
  Qed.
End SrcP.
