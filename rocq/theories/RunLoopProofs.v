From Coq Require Import ZArith NArith Permutation.
From Verif Require Import Base Concur QueueSpec QueueProofs SchedSpec SchedOrder LoopSpec LoopBase LoopAbs TestProofs RunLoopModel.
Open Scope Z_scope.

Section RunLoop.
  Variable kind : nat -> skind.
  Variable beh : nat -> nat -> list ract * sres.
  Variable onerr : nat -> list ract.
  Variable choice : nat -> nat.
  Notation rstep := (rstep kind beh onerr choice).
  Notation rexec := (gexec rstep).

  Definition r_hand (it : ritem) : list hand :=
    match it with
    | RTop t | RRun t => [HPicked t]
    | RRet t _ => [HRun t]
    | RRePush t _ | RReIns t _ => [HRes t]
    | _ => []
    end.
  Definition r_abs (s : rstate) (l : list ritem) : astate :=
    AState (r_now s) (r_queue s) (flat_map r_hand l) (r_dead s) (r_next s) (r_disposed s).
  Definition r_ok1 (s : rstate) (it : ritem) : Prop :=
    match it with
    | RTop t | RRun t | RRet t _ => this_ok t
    | RRePush t tp | RReIns t tp => t_due t <= tp
    | RClear => r_disposed s = true
    | _ => True
    end.
  Definition r_ok (s : rstate) (l : list ritem) : Prop := Forall this_ok (r_queue s) /\ Forall (r_ok1 s) l.

  Lemma racts_hand : forall acts, flat_map r_hand (map RAct acts) = [].
  Proof. induction acts; auto. Qed.
  Lemma racts_ok : forall s acts, Forall (r_ok1 s) (map RAct acts).
  Proof. induction acts; constructor; cbn; auto. Qed.

  (** Break a step into its cases. *)
  Ltac rcases E :=
    unfold RunLoopModel.rstep in E; cbn [r_now r_queue r_dead r_next r_disposed r_waiting r_woken r_calls r_notifies] in E;
    repeat match type of E with context [match ?x with _ => _ end] =>
      lazymatch x with context [match _ with _ => _ end] => fail | _ => destruct x eqn:? end end;
    try discriminate; injection E as <- <- <-.

  Lemma disp_mono : forall s it s' its ls, rstep s it = Some (s', its, ls) -> r_disposed s = true -> r_disposed s' = true.
  Proof. intros s it s' its ls E D. destruct s as [now q d n f w k cl nf]. cbn in D. subst f. destruct it as [[]| | | | | | | | | | | | |]; rcases E; auto. Qed.

  Lemma r_sim : forall s l1 it l2 s' its ls, r_ok s (l1 ++ it :: l2) -> rstep s it = Some (s', its, ls) ->
    r_ok s' (l1 ++ its ++ l2) /\ aexec (r_abs s (l1 ++ it :: l2)) ls (r_abs s' (l1 ++ its ++ l2)).
  Proof.
    intros s l1 it l2 s' its ls [OQ OL] E.
    assert (MON : forall x, r_ok1 s x -> r_ok1 s' x).
    { intros x. destruct x; cbn; auto. eapply disp_mono; eauto. }
    apply Forall_app in OL. destruct OL as [O1 O2]. inversion O2 as [|? ? OI O3]; subst.
    apply (Forall_impl _ MON) in O1, O3.
    assert (OK : Forall this_ok (r_queue s') -> Forall (r_ok1 s') its -> r_ok s' (l1 ++ its ++ l2)).
    { intros. split; auto. rewrite !Forall_app. auto. }
    clear MON O2 O1 O3. unfold r_abs. rewrite !flat_map_app. cbn [flat_map].
    destruct s as [now q d n f w k cl nf]. cbn [r_now r_queue r_dead r_next r_disposed] in *.
    destruct it as [[]|tp code h|tp code h| | |c w1|c w1|c|t|t|t r|t tp|t tp|c]; rcases E; cbn [r_queue r_setq r_now r_dead r_next r_disposed] in *;
      try (split; [apply OK; auto; repeat (apply Forall_cons || apply Forall_nil); cbn; auto | cbn; apply aexec_one; constructor; auto; try lia; cbn; auto; fail]);
      try (split; [apply OK; auto; repeat (apply Forall_cons || apply Forall_nil); cbn; auto | constructor]; fail).
    - apply ins_ok; auto. unfold this_ok. cbn. lia.
    - cbn in OI. subst f. split; [apply OK; auto|]. cbn. apply aexec_one. constructor.
    - inversion OQ; subst. split; [apply OK; auto|]. cbn. apply aexec_one. constructor. now apply dead_in.
    - inversion OQ; subst. split; [apply OK; cbn; auto; repeat (apply Forall_cons || apply Forall_nil); cbn; auto|]. cbn.
      change [(now, LPick (t_id t)); (now, LBy c)] with ([(now, LPick (t_id t))] ++ [(now, LBy c)]).
      econstructor; [apply aexec_one; apply A_pick; [now apply dead_not | lia] | apply A_misc; exact I].
    - split; [apply OK; auto|]. cbn. apply aexec_one. apply A_droph. now apply dead_in.
    - split; [apply OK; auto; apply Forall_app; split; [apply racts_ok | repeat constructor; exact OI]|].
      cbn. rewrite flat_map_app, racts_hand. cbn. apply aexec_one. constructor.
    - split; [apply OK; auto; apply racts_ok|]. rewrite racts_hand. cbn.
      change [(now, LEnd (t_id t) RThrow); (now, LErr (t_id t) (t_h t))] with ([(now, LEnd (t_id t) RThrow)] ++ [(now, LErr (t_id t) (t_h t))]).
      econstructor; [apply aexec_one; constructor | constructor].
    - cbn in OI. unfold this_ok, next_due, new_tp in *. destruct (t_k t); lia.
    - cbn in OI. apply ins_ok; auto.
  Qed.

  Lemma init_hand : forall progs, flat_map r_hand (concat (map (map RAct) progs)) = [].
  Proof. induction progs; cbn; auto. rewrite flat_map_app, racts_hand. auto. Qed.
  Lemma init_ok : forall s progs, Forall (r_ok1 s) (concat (map (map RAct) progs)).
  Proof. intros s progs. induction progs as [|p progs IH]; cbn; [constructor|]. apply Forall_app. split; auto. apply racts_ok. Qed.
  Lemma r_abs_exec : forall t0 progs tr s ts, rexec (r_init t0 progs) tr (s, ts) ->
    aexec (a_init t0) tr (r_abs s (concat ts)).
  Proof.
    intros t0 progs tr s ts X. destruct (simulate rstep r_abs r_ok r_sim _ _ _ X) as [_ A].
    - split; [constructor | apply init_ok].
    - cbn [fst snd r_init] in A. unfold r_abs at 1 in A. rewrite init_hand in A. exact A.
  Qed.

  (** ** Dispatch calls *)
  Definition open_of (it : ritem) : list nat :=
    match it with RPop n _ | RLock n _ | RBlocked n => [n] | _ => [] end.
  Lemma racts_open : forall acts, flat_map open_of (map RAct acts) = [].
  Proof. induction acts; auto. Qed.
  Definition By (n : nat) (tr : list ltev) : nat := length (filter (fun e => match snd e with LBy m => Nat.eqb m n | _ => false end) tr).
  (** Each dispatch call is in progress at most once and runs at most one task. *)
  Record DInv (s : rstate) (l : list ritem) (tr : list ltev) : Prop := {
    d_one : forall n, (count_occ Nat.eq_dec (flat_map open_of l) n + By n tr <= 1)%nat;
    d_lt : forall n, (count_occ Nat.eq_dec (flat_map open_of l) n + By n tr > 0)%nat -> (n < r_calls s)%nat;
    d_ent : forall n, happened tr (LEnter n) -> (n < r_calls s)%nat
  }.
  Lemma by_app : forall n a b, By n (a ++ b) = (By n a + By n b)%nat.
  Proof. intros. unfold By. now rewrite filter_app, app_length. Qed.
  Lemma d_exec : forall t0 progs tr c, rexec (r_init t0 progs) tr c -> DInv (fst c) (concat (snd c)) tr.
  Proof.
    intros t0 progs tr c X. eapply gexec_inv with (istep := rstep) (Inv := DInv); [ | | exact X | ].
    - intros s l l' tr' P [A B C].
      assert (PE : forall n, count_occ Nat.eq_dec (flat_map open_of l') n = count_occ Nat.eq_dec (flat_map open_of l) n)
        by (intro; apply Permutation_count_occ, Permutation_flat_map, Permutation_sym, P).
      split; auto; intro n; rewrite PE; auto.
    - intros s it l tr' s' its ls [A B C] E.
      assert (N0 : (count_occ Nat.eq_dec (flat_map open_of (it :: l)) (r_calls s) + By (r_calls s) tr' = 0)%nat).
      { specialize (B (r_calls s)). lia. }
      assert (D : forall n, (count_occ Nat.eq_dec (flat_map open_of (its ++ l)) n + By n ls <= count_occ Nat.eq_dec (flat_map open_of (it :: l)) n \/
         n = r_calls s /\ r_calls s' = S n /\ count_occ Nat.eq_dec (flat_map open_of (its ++ l)) n + By n ls <= S (count_occ Nat.eq_dec (flat_map open_of (it :: l)) n))%nat).
      { intro n. rewrite flat_map_app, count_occ_app. cbn [flat_map]. rewrite count_occ_app. clear - E.
        destruct s as [now q d nx f w k cl nf].
        destruct it as [[]|tp code h|tp code h| | |c w1|c w1|c|t|t|t r|t tp|t tp|c]; rcases E; rewrite ?flat_map_app, ?racts_open; cbn;
          repeat match goal with |- context [Nat.eq_dec ?x ?y] => destruct (Nat.eq_dec x y) end; subst; rewrite ?Nat.eqb_refl; cbn; try lia.
        destruct (Nat.eqb_spec c n); [congruence | cbn; lia]. }
      assert (M : (r_calls s <= r_calls s')%nat).
      { clear - E. destruct s as [now q d nx f w k cl nf].
        destruct it as [[]|tp code h|tp code h| | |c w1|c w1|c|t|t|t r|t tp|t tp|c]; rcases E; cbn; lia. }
      split.
      + intro n. rewrite by_app. specialize (A n). destruct (D n) as [|(-> & ? & ?)]; lia.
      + intros n P. rewrite by_app in P. specialize (B n). destruct (D n) as [|(-> & ? & ?)]; lia.
      + intros n H. apply happened_app in H. destruct H as [H | H]; [specialize (C _ H); lia|].
        clear - E H. destruct s as [now q d nx f w k cl nf].
        destruct it as [[]|tp code h|tp code h| | |c w1|c w1|c|t|t|t r|t tp|t tp|c]; rcases E; destruct H as (t1 & H); cbn in H;
          try contradiction; repeat (destruct H as [H | H]; try discriminate; try contradiction). injection H as <- <-. cbn. lia.
    - assert (Z1 : flat_map open_of (concat (map (map RAct) progs)) = []).
      { clear. induction progs; cbn; auto. rewrite flat_map_app, racts_open. auto. }
      cbn [fst snd r_init]. split; rewrite ?Z1; cbn; intros; try lia. destruct H as (t & []).
  Qed.
  Lemma by_once : forall t0 progs tr c n, rexec (r_init t0 progs) tr c -> (By n tr <= 1)%nat.
  Proof. intros t0 progs tr c n X. destruct (d_exec _ _ _ _ X) as [A _ _]. specialize (A n). lia. Qed.


  Lemma r_flag : forall t0 progs tr s ts, rexec (r_init t0 progs) tr (s, ts) -> (r_disposed s = true <-> happened tr LFlag).
  Proof. intros t0 progs tr s ts X. apply (proj2 (dead_fl _ _ _ (r_abs_exec _ _ _ _ _ X))). Qed.

  Definition lock_of (it : ritem) : list nat := match it with RLock n _ | RBlocked n => [n] | _ => [] end.
  Lemma racts_lock : forall acts, flat_map lock_of (map RAct acts) = [].
  Proof. induction acts; auto. Qed.
  Lemma lock_open : forall l n, (count_occ Nat.eq_dec (flat_map lock_of l) n <= count_occ Nat.eq_dec (flat_map open_of l) n)%nat.
  Proof.
    induction l as [|x l IH]; intro n; auto. cbn [flat_map]. rewrite !count_occ_app. specialize (IH n). destruct x; cbn; try lia; destruct (Nat.eq_dec _ _); lia.
  Qed.

  (** A dispatch call made on a disposed loop runs nothing. *)
  Definition late (n : nat) (tr : list ltev) : Prop := exists a t b, tr = a ++ (t, LEnter n) :: b /\ happened a LFlag.
  Lemma late_app : forall n tr ls, late n (tr ++ ls) -> late n tr \/ (happened ls (LEnter n) /\ (happened tr LFlag \/ (happened ls LFlag))).
  Proof.
    intros n tr ls (a & t & b & E & F). apply app_eq_app in E. destruct E as (l & [[E1 E2] | [E1 E2]]).
    - destruct l as [|y l].
      + right. cbn in E2. subst ls. split; [exists t; now left|]. left. subst. now rewrite app_nil_r.
      + injection E2 as <- ->. left. exists a, t, l. auto.
    - right. subst. split; [exists t; apply in_or_app; right; now left|]. apply happened_app in F.
      destruct F as [F | F]; auto. right. apply happened_app. auto.
  Qed.
  Definition LInv (s : rstate) (l : list ritem) (tr : list ltev) : Prop :=
    DInv s l tr /\ (happened tr LFlag -> r_disposed s = true) /\
    forall n, late n tr -> r_disposed s = true /\ count_occ Nat.eq_dec (flat_map lock_of l) n = 0%nat /\ By n tr = 0%nat.
  Lemma late_dispatch : forall t0 progs tr c a t n b, rexec (r_init t0 progs) tr c -> tr = a ++ (t, LEnter n) :: b ->
    happened a LFlag ->
    By n tr = 0%nat /\ ~ In n (flat_map lock_of (concat (snd c))).
  Proof.
    intros t0 progs tr c a t n b X E F.
    assert (L : forall c tr, rexec (r_init t0 progs) tr c -> forall n, late n tr ->
       r_disposed (fst c) = true /\ count_occ Nat.eq_dec (flat_map lock_of (concat (snd c))) n = 0%nat /\ By n tr = 0%nat).
    { clear - kind. intros c tr X. remember (r_init t0 progs) as c0 eqn:E0. induction X as [c|c tr c1 ls c2 X IH G]; subst.
      - intros n (a & t & b & E & _). destruct a; discriminate.
      - specialize (IH eq_refl). intros n LT. apply late_app in LT.
        pose proof (d_exec _ _ _ _ X) as [D1 D2 D3]. inversion G as [s ts1 it rest ts2 s' its ls' ST E1 E2 E3]; subst. pose proof (r_flag _ _ _ _ _ X) as RF. cbn [fst snd] in *.
        rewrite !concat_app, !flat_map_app, !count_occ_app in *. cbn [concat] in *. rewrite by_app.
        cbn [app flat_map] in *. rewrite !flat_map_app, !count_occ_app in *.
        destruct LT as [LT | [LE LF]].
        + destruct (IH _ LT) as (A & B & C). split; [eapply disp_mono; eauto|].
          rewrite ?flat_map_app, ?count_occ_app in *.
          assert (count_occ Nat.eq_dec (flat_map lock_of its) n = 0 /\ By n ls = 0)%nat; [|lia].
          clear - A B ST. destruct s as [now q d nx f w k cl nf]. cbn in A. subst f.
          destruct it as [[]|tp code h|tp code h| | |cc w1|cc w1|cc|tt|tt|tt r|tt tp|tt tp|cc]; rcases ST; cbn in B |- *;
            rewrite ?flat_map_app, ?racts_lock; cbn; auto; try (destruct (Nat.eq_dec cc n); subst; cbn in B; [lia | auto]).
          all: destruct w1; discriminate.
        + specialize (D2 n). specialize (D3 n). pose proof (lock_open (concat ts1) n). pose proof (lock_open rest n). pose proof (lock_open (concat ts2) n).
          rewrite ?flat_map_app, ?count_occ_app in *.
          assert (Q : n = r_calls s /\ count_occ Nat.eq_dec (flat_map lock_of its) n = 0%nat /\ By n ls = 0%nat /\ ~ happened ls LFlag /\ r_disposed s' = r_disposed s).
          { clear - ST LE. destruct s as [now q d nx f w k cl nf].
            destruct it as [[]|tp code h|tp code h| | |cc w1|cc w1|cc|tt|tt|tt r|tt tp|tt tp|cc]; rcases ST; destruct LE as (t1 & LE); cbn in LE;
              try contradiction; repeat (destruct LE as [LE | LE]; try discriminate; try contradiction). injection LE as <- <-. cbn. repeat split; auto.
            intros (t2 & [H | []]). discriminate. }
          destruct Q as (-> & Q1 & Q2 & Q3 & Q4). destruct LF as [LF | LF]; [|tauto]. rewrite Q4. split; [now apply RF|]. lia. }
    destruct (L _ _ X n) as (_ & L1 & L2); [exists a, t, b; auto|]. split; auto. rewrite (count_occ_In Nat.eq_dec). unfold lock_of in *. lia.
  Qed.

  (** ** Wake-ups *)
  Definition note_of (it : ritem) : nat := match it with RNotify => 1 | _ => 0 end.
  Definition awake_of (it : ritem) : nat := match it with RPop _ true | RLock _ true => 1 | _ => 0 end.
  Definition blocked_of (it : ritem) : list nat := match it with RBlocked n => [n] | _ => [] end.
  Definition nsum (f : ritem -> nat) (l : list ritem) : nat := list_sum (map f l).
  Lemma nsum_app : forall f a b, nsum f (a ++ b) = (nsum f a + nsum f b)%nat.
  Proof. intros. unfold nsum. now rewrite map_app, list_sum_app. Qed.
  Lemma nsum_perm : forall f a b, Permutation a b -> nsum f a = nsum f b.
  Proof. intros f a b P. unfold nsum. induction P; cbn [map list_sum fold_right] in *; fold list_sum in *; unfold list_sum in *; lia. Qed.
  Lemma racts_sum : forall f acts, (forall a, f (RAct a) = 0%nat) -> nsum f (map RAct acts) = 0%nat.
  Proof. intros f acts H. induction acts; auto. unfold nsum in *. cbn. rewrite H. auto. Qed.
  Lemma racts_blocked : forall acts, flat_map blocked_of (map RAct acts) = [].
  Proof. induction acts; auto. Qed.
  Lemma t_ins_len : forall t q, length (t_ins t q) = S (length q).
  Proof. intros. apply (Permutation_length (t_ins_perm t q)). Qed.
  Lemma remove_nth_count : forall i (l : list nat) n, (i < length l)%nat ->
    (count_occ Nat.eq_dec (remove_nth i l) n + (if Nat.eq_dec (nth i l O) n then 1 else 0) = count_occ Nat.eq_dec l n)%nat.
  Proof.
    induction i; intros [|x l] n H; cbn [remove_nth nth count_occ length] in *; try lia.
    - destruct (Nat.eq_dec x n); lia.
    - specialize (IHi l n ltac:(lia)). destruct (Nat.eq_dec x n); lia.
  Qed.
  Lemma remove_nth_len : forall i (l : list nat), (i < length l)%nat -> S (length (remove_nth i l)) = length l.
  Proof. induction i; intros [|x l] H; cbn in *; try lia. rewrite IHi; lia. Qed.
  Lemma remove_one_count : forall m l n, existsb (Nat.eqb m) l = true ->
    (count_occ Nat.eq_dec (remove_one m l) n + (if Nat.eq_dec m n then 1 else 0) = count_occ Nat.eq_dec l n)%nat.
  Proof.
    induction l as [|x l IH]; intros n H; cbn [remove_one existsb count_occ] in *; [discriminate|].
    destruct (Nat.eqb_spec m x); destruct (Nat.eqb_spec x m); subst; try congruence; cbn [orb count_occ] in *.
    - destruct (Nat.eq_dec x n); lia.
    - specialize (IH n H). destruct (Nat.eq_dec x n); lia.
  Qed.
  Lemma remove_one_len : forall m l, existsb (Nat.eqb m) l = true -> S (length (remove_one m l)) = length l.
  Proof.
    induction l as [|x l IH]; intros H; cbn in *; [discriminate|]. destruct (Nat.eqb_spec m x); destruct (Nat.eqb_spec x m); subst; try congruence; cbn in *; auto.
  Qed.
  Definition WInv (s : rstate) (l : list ritem) (tr : list ltev) : Prop :=
    (r_disposed s = false -> r_waiting s <> [] -> (length (r_queue s) <= nsum note_of l + nsum awake_of l + length (r_woken s))%nat) /\
    (forall n, count_occ Nat.eq_dec (flat_map blocked_of l) n = (count_occ Nat.eq_dec (r_waiting s) n + count_occ Nat.eq_dec (r_woken s) n)%nat) /\
    (In RClear l -> r_disposed s = true).
  Lemma w_exec : forall t0 progs tr c, rexec (r_init t0 progs) tr c -> WInv (fst c) (concat (snd c)) tr.
  Proof.
    intros t0 progs tr c X. eapply gexec_inv with (istep := rstep) (Inv := WInv); [ | | exact X | ].
    - intros s l l' tr' P (A & B & C). split; [|split].
      + rewrite <- !(nsum_perm _ _ _ P). auto.
      + intro n. rewrite <- B. apply Permutation_count_occ, Permutation_flat_map, Permutation_sym, P.
      + intro I. apply C. eapply Permutation_in; [apply Permutation_sym, P | auto].
    - intros s it l tr' s' its ls (A & B & C) E. unfold WInv. rewrite !nsum_app, flat_map_app. unfold nsum in A. cbn [map list_sum fold_right flat_map] in A, B.
      fold (list_sum (map note_of l)) in A. fold (list_sum (map awake_of l)) in A. fold (nsum note_of l) in A. fold (nsum awake_of l) in A.
      split; [|split].
      + intros D W. destruct s as [now q d nx f w k cl nf].
        destruct it as [[]|tp code h|tp code h| | |cc w1|cc w1|cc|tt|tt|tt r|tt tp|tt tp|cc]; rcases E; cbn [r_queue r_waiting r_woken r_disposed r_setq note_of awake_of] in *;
          rewrite ?nsum_app, ?racts_sum by reflexivity; rewrite ?t_ins_len; cbn [nsum map list_sum fold_right note_of awake_of length] in *;
          try discriminate; try congruence; try (specialize (A D)); try (specialize (A W)); try lia.
        * specialize (A ltac:(discriminate)). lia.
        * destruct w1; lia.
        * destruct w1; lia.
        * match goal with H : existsb _ _ = true |- _ => pose proof (remove_one_len _ _ H) end. lia.
      + intro n. specialize (B n). destruct s as [now q d nx f w k cl nf].
        destruct it as [[]|tp code h|tp code h| | |cc w1|cc w1|cc|tt|tt|tt r|tt tp|tt tp|cc]; rcases E; cbn [r_queue r_waiting r_woken r_disposed r_setq blocked_of app] in *;
          rewrite ?flat_map_app, ?racts_blocked; cbn [flat_map blocked_of app count_occ] in *; auto.
        * match goal with |- context [remove_nth ?i ?l] => assert (LT : (i < length l)%nat) by (cbn [length]; lia); pose proof (remove_nth_count i l n LT) as R end.
          rewrite B. cbn [count_occ] in *. rewrite <- R. set (j := (length l0 - _)%nat) in *.
          change (match j with O => n0 | S m => nth m l0 O end) with (nth j (n0 :: l0) O). destruct (Nat.eq_dec (nth j (n0 :: l0) O) n); lia.
        * rewrite count_occ_app. cbn [count_occ]. destruct (Nat.eq_dec cc n); lia.
        * rewrite count_occ_app. cbn [count_occ]. destruct (Nat.eq_dec cc n); lia.
        * match goal with H : existsb _ _ = true |- _ => pose proof (remove_one_count _ _ n H) as R end. destruct (Nat.eq_dec cc n); lia.
      + intro I. apply in_app_or in I. destruct I as [I | I].
        * clear - E I. destruct s as [now q d nx f w k cl nf].
          destruct it as [[]|tp code h|tp code h| | |cc w1|cc w1|cc|tt|tt|tt r|tt tp|tt tp|cc]; rcases E; cbn in I; try tauto;
            try (rewrite ?in_app_iff, ?in_map_iff in I; cbn in I); try (decompose [or ex and] I; try discriminate; tauto).
        * eapply disp_mono; eauto. apply C. now right.
    - assert (Z1 : forall f, (forall a, f (RAct a) = 0%nat) -> nsum f (concat (map (map RAct) progs)) = 0%nat).
      { clear. intros f H. induction progs; auto. cbn [map concat]. rewrite nsum_app, racts_sum; auto. }
      cbn [fst snd r_init]. unfold WInv. cbn. repeat split; try congruence.
      + intro n. enough (E : flat_map blocked_of (concat (map (map RAct) progs)) = []) by now rewrite E.
        clear. induction progs; auto. cbn. rewrite flat_map_app, racts_blocked. auto.
      + intro I. apply in_concat in I. destruct I as (x & I1 & I2). apply in_map_iff in I1. destruct I1 as (p & <- & _).
        apply in_map_iff in I2. destruct I2 as (? & ? & _). discriminate.
  Qed.

  (** ** No deadlock *)
  Definition stuck (c : gconfig) : Prop := forall ls c', ~ gstep rstep c ls c'.
  Definition tail_ok (it : ritem) : Prop := match it with RAct _ | RRet _ _ | RLeave _ => True | _ => False end.
  Definition shape (t : list ritem) : Prop :=
    match t with
    | [] => True
    | h :: tl => Forall tail_ok tl \/ (h = RClear /\ exists tl', tl = RNotify :: tl' /\ Forall tail_ok tl')
    end.
  Lemma tail_shape : forall t, Forall tail_ok t -> shape t.
  Proof. intros [|h tl] F; cbn; auto. inversion F; auto. Qed.
  Lemma racts_tail : forall acts, Forall tail_ok (map RAct acts).
  Proof. induction acts; constructor; cbn; auto. Qed.
  Lemma shape_exec : forall t0 progs tr c, rexec (r_init t0 progs) tr c -> Forall shape (snd c).
  Proof.
    intros t0 progs tr c X. remember (r_init t0 progs) as c0 eqn:E0. induction X as [c|c tr c1 ls c2 X IH G]; subst.
    - cbn. clear. induction progs; constructor; auto. apply tail_shape, racts_tail.
    - specialize (IH eq_refl). inversion G as [s ts1 it rest ts2 s' its ls' ST]; subst. cbn [snd] in *.
      rewrite Forall_app in *. destruct IH as [F1 F2]. split; auto. inversion F2 as [|? ? SH F3]; subst. constructor; auto.
      clear - ST SH. cbn in SH. destruct SH as [F | (-> & tl & -> & F)].
      + destruct s as [now q d nx f w k cl nf].
        destruct it as [[]|tp code h|tp code h| | |cc w1|cc w1|cc|tt|tt|tt r|tt tp|tt tp|cc]; rcases ST; cbn [app];
          try (apply tail_shape; auto; fail); try (left; auto; fail).
        * left. constructor; cbn; auto.
        * right. eauto.
        * rewrite <- app_assoc. apply tail_shape. apply Forall_app. split; [apply racts_tail | repeat constructor; auto].
        * apply tail_shape, Forall_app. split; [apply racts_tail | auto].
      + cbn in ST. injection ST as <- <- <-. cbn. left. auto.
  Qed.

  Lemma stuck_threads : forall s ts t, stuck (s, ts) -> In t ts -> t = [] \/ exists n tl, t = RBlocked n :: tl /\ ~ In n (r_woken s).
  Proof.
    intros s ts t ST I. destruct t as [|it tl]; auto. right. destruct (in_split _ _ I) as (ts1 & ts2 & ->).
    destruct (rstep s it) as [[[s' its] ls]|] eqn:E; [exfalso; eapply ST; econstructor; eauto|].
    destruct it as [[]|tp code h|tp code h| | |cc w1|cc w1|cc|tt|tt|tt r|tt tp|tt tp|cc]; unfold RunLoopModel.rstep in E;
      repeat match type of E with context [match ?x with _ => _ end] =>
        lazymatch x with context [match _ with _ => _ end] => fail | _ => destruct x eqn:? end end; try discriminate.
    exists cc, tl. split; auto. intro W. assert (existsb (Nat.eqb cc) (r_woken s) = true); [|congruence].
    apply existsb_exists. exists cc. split; auto. apply Nat.eqb_refl.
  Qed.
  Lemma tail_sum : forall f l, (forall it, tail_ok it -> f it = 0%nat) -> Forall tail_ok l -> nsum f l = 0%nat.
  Proof. intros f l H F. induction F as [|x l P F IHF]; auto. change (nsum f (x :: l)) with (f x + nsum f l)%nat. rewrite IHF, H; auto. Qed.
  Lemma stuck_sum : forall f s ts, stuck (s, ts) -> Forall shape ts -> (forall it, tail_ok it -> f it = 0%nat) ->
    (forall n, f (RBlocked n) = 0%nat) -> nsum f (concat ts) = 0%nat.
  Proof.
    intros f s ts ST SH T B.
    assert (H : forall t, In t ts -> nsum f t = 0%nat).
    { intros t I. rewrite Forall_forall in SH. specialize (SH _ I). destruct (stuck_threads _ _ _ ST I) as [-> | (n & tl & -> & _)]; auto.
      cbn in SH. destruct SH as [F | (E & _)]; [|discriminate]. change (nsum f (RBlocked n :: tl)) with (f (RBlocked n) + nsum f tl)%nat. rewrite B, (tail_sum f tl T F). reflexivity. }
    clear - H. induction ts as [|t ts IH]; auto. cbn [concat]. rewrite nsum_app, (H t), IH; auto. intros; apply H; now right. now left.
  Qed.
  Lemma tail_blocked : forall l, Forall tail_ok l -> flat_map blocked_of l = [].
  Proof. induction 1; auto. destruct x; cbn in *; auto; contradiction. Qed.
  Lemma stuck_woken : forall t0 progs tr s ts, rexec (r_init t0 progs) tr (s, ts) -> stuck (s, ts) -> r_woken s = [].
  Proof.
    intros t0 progs tr s ts X ST. destruct (r_woken s) as [|n k] eqn:K; auto. exfalso.
    destruct (w_exec _ _ _ _ X) as (_ & B & _). cbn [fst snd] in B. specialize (B n). rewrite K in B. cbn [count_occ] in B.
    destruct (Nat.eq_dec n n); [|congruence].
    assert (I : In n (flat_map blocked_of (concat ts))) by (apply (count_occ_In Nat.eq_dec); lia).
    apply in_flat_map in I. destruct I as (it & I1 & I2). destruct it; cbn in I2; try contradiction. destruct I2 as [-> | []].
    apply in_concat in I1. destruct I1 as (t & I1 & I2). pose proof (shape_exec _ _ _ _ X) as SH. cbn in SH. rewrite Forall_forall in SH. specialize (SH _ I1).
    destruct (stuck_threads _ _ _ ST I1) as [-> | (m & tl & -> & NW)]; [contradiction|].
    destruct I2 as [I2 | I2]; [injection I2 as ->; apply NW; rewrite K; now left|].
    cbn in SH. destruct SH as [F | (E & _)]; [|discriminate]. rewrite Forall_forall in F. apply (F _ I2).
  Qed.

  (** A dispatcher is never left waiting while there is a task in the queue. *)
  Theorem no_lost_wakeup : forall t0 progs tr s ts, rexec (r_init t0 progs) tr (s, ts) -> stuck (s, ts) ->
    r_disposed s = false -> r_waiting s <> [] -> r_queue s = [].
  Proof.
    intros t0 progs tr s ts X ST D W. destruct (w_exec _ _ _ _ X) as (A & _ & _). cbn [fst snd] in A.
    pose proof (shape_exec _ _ _ _ X) as SH. cbn in SH. specialize (A D W).
    rewrite (stuck_sum note_of _ _ ST SH), (stuck_sum awake_of _ _ ST SH), (stuck_woken _ _ _ _ _ X ST) in A;
      try (intros []; cbn; tauto); try reflexivity.
    destruct (r_queue s); auto. cbn in A. lia.
  Qed.

  (** After disposal, notifications outnumber the waiters if they did at first. *)
  Lemma disposed_wakes : forall c2 tr c, rexec c2 tr c -> r_disposed (fst c2) = true ->
    (length (r_waiting (fst c2)) <= nsum note_of (concat (snd c2)))%nat ->
    r_disposed (fst c) = true /\ (length (r_waiting (fst c)) <= nsum note_of (concat (snd c)))%nat.
  Proof.
    intros c2 tr c X D L. induction X as [c|c tr c1 ls c3 X IH G]; auto.
    specialize (IH D L). destruct IH as [D1 L1]. inversion G as [s ts1 it rest ts2 s' its ls' ST]; subst. cbn [fst snd] in *.
    split; [eapply disp_mono; eauto|]. rewrite !concat_app, !nsum_app in *. cbn [concat app] in *.
    change (it :: rest ++ concat ts2) with ([it] ++ rest ++ concat ts2) in L1. rewrite !nsum_app in *.
    enough (H : (length (r_waiting s') + nsum note_of [it] <= length (r_waiting s) + nsum note_of its)%nat \/ (length (r_waiting s') = 0%nat)) by (destruct H; lia).
    clear - ST D1. destruct s as [now q d nx f w k cl nf]. cbn in D1. subst f.
    destruct it as [[]|tp code h|tp code h| | |cc w1|cc w1|cc|tt|tt|tt r|tt tp|tt tp|cc]; rcases ST; cbn [r_waiting r_setq];
      try (right; reflexivity); try (left; cbn; lia).
    - left. match goal with |- context [remove_nth ?i ?l] => assert (LT : (i < length l)%nat) by (cbn [length]; lia); pose proof (remove_nth_len i l LT) end.
      cbn [nsum map list_sum fold_right note_of]. lia.
  Qed.
  Theorem one_waiter_released : forall t0 progs tr1 c1 ls c2 tr2 s ts,
    rexec (r_init t0 progs) tr1 c1 -> gstep rstep c1 ls c2 -> happened ls LFlag -> (length (r_waiting (fst c1)) <= 1)%nat ->
    rexec c2 tr2 (s, ts) -> stuck (s, ts) -> gfinished (s, ts).
  Proof.
    intros t0 progs tr1 c1 ls c2 tr2 s ts X1 G F W X2 ST t I. cbn in I.
    assert (X : rexec (r_init t0 progs) ((tr1 ++ ls) ++ tr2) (s, ts)) by (eapply gexec_app; [econstructor; eauto | eauto]).
    assert (P : r_disposed (fst c2) = true /\ (length (r_waiting (fst c2)) <= nsum note_of (concat (snd c2)))%nat).
    { inversion G as [s1 ts1 it rest ts2 s2 its ls' E]; subst. cbn [fst snd] in *. rewrite concat_app, nsum_app. cbn [concat]. rewrite nsum_app.
      clear - E F W. destruct s1 as [now q d nx f w k cl nf].
      destruct it as [[]|tp code h|tp code h| | |cc w1|cc w1|cc|tt|tt|tt r|tt tp|tt tp|cc]; rcases E; destruct F as (t1 & F); cbn in F;
        try contradiction; repeat (destruct F as [F | F]; try discriminate; try contradiction).
      cbn in *. split; auto. unfold nsum at 2. cbn. lia. }
    destruct P as [P1 P2]. destruct (disposed_wakes _ _ _ X2 P1 P2) as [D L]. cbn [fst snd] in *.
    pose proof (shape_exec _ _ _ _ X) as SH. cbn in SH. rewrite (stuck_sum note_of _ _ ST SH) in L; try (intros []; cbn; tauto); try reflexivity.
    pose proof (stuck_woken _ _ _ _ _ X ST) as K. destruct (w_exec _ _ _ _ X) as (_ & B & _). cbn [fst snd] in B.
    destruct (stuck_threads _ _ _ ST I) as [-> | (n & tl & -> & NW)]; auto. exfalso. specialize (B n). rewrite K in B.
    destruct (r_waiting s); [|cbn in L; lia]. cbn [count_occ] in B.
    assert (IN : In n (flat_map blocked_of (concat ts))).
    { apply in_flat_map. exists (RBlocked n). split; [|now left]. apply in_concat. eexists. split; [exact I | now left]. }
    apply (count_occ_In Nat.eq_dec) in IN. lia.
  Qed.
End RunLoop.
