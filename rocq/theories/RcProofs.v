(** ref_count: only the youngest counter is in use, and it is connected by the one who made it. *)
From Coq Require Import Permutation.
From Verif Require Import Base Concur RcSpec RcModel.

Lemma wset_length : forall l k w, length (wset l k w) = length l.
Proof. induction l as [|x l IH]; intros [|k] w; cbn; auto. Qed.
Lemma wset_nth : forall l k w j d, k < length l -> nth j (wset l k w) d = if j =? k then w else nth j l d.
Proof.
  induction l as [|x l IH]; intros [|k] w [|j] d H; cbn in *; try lia; auto.
  apply IH. lia.
Qed.
Lemma force_app : forall a b c, force c (a ++ b) = force (force c a) b.
Proof. induction a as [|[| |k|k|k] a IH]; intros b c; cbn; auto. Qed.
Lemma one_app : forall a b c, one_at_a_time c (a ++ b) <-> one_at_a_time c a /\ one_at_a_time (force c a) b.
Proof. induction a as [|[| |k|k|k] a IH]; intros b c; cbn; rewrite ?IH; intuition. Qed.
Lemma present_app : forall a b n, present n (a ++ b) = present (present n a) b.
Proof. induction a as [|[| |k|k|k] a IH]; intros b n; cbn; auto. Qed.

Definition isk (o : option nat) (k : nat) : bool := match o with Some j => j =? k | None => false end.
Definition holder (k : nat) (i : kitem) : bool :=
  match i with
  | RSubj o _ | RStay o => isk o k
  | RCheck j | RConn j | RSrc j | RRel j => j =? k
  | _ => false
  end.
Definition early (k : nat) (i : kitem) : bool :=
  match i with RSubj _ o => isk o k | RCheck j | RConn j => j =? k | _ => false end.
Definition last_step (k : nat) (i : kitem) : bool := match i with RSrc j => j =? k | _ => false end.
Definition flagger (k : nat) (i : kitem) : bool := match i with RFlag j => j =? k | _ => false end.
Definition kids (k : nat) (i : kitem) : bool := match i with RKids j => j =? k | _ => false end.
Definition refs (k : nat) (i : kitem) : bool := match i with RRef j => j =? k | _ => false end.
Definition anyref (i : kitem) : bool := match i with RRef _ => true | _ => false end.
Definition inside (i : kitem) : bool :=
  match i with RCheck _ | RConn _ | RSrc _ | RStay _ | ROut => true | _ => false end.
Definition odd (i : kitem) : bool :=
  match i with RSubj (Some j) (Some k) => negb (j =? k) | RSubj None (Some _) => true | _ => false end.

Record inv (s : kst) (l : list kitem) (tr : list rlab) : Prop := IV {
  v_cur : k_cur s = match length (k_w s) with 0 => None | S m => Some m end;
  v_old : forall j, S j < length (k_w s) -> w_flag (wget s j) = true;
  v_cnt : forall k, k < length (k_w s) ->
      match w_cnt (wget s k) with
      | Some m => m = count (holder k) l /\ 1 <= m /\ w_flag (wget s k) = false /\ count (flagger k) l = 0
      | None => count (holder k) l = 0 /\ count (flagger k) l = if w_flag (wget s k) then 0 else 1
      end;
  v_src : forall k, w_src (wget s k) = true -> w_flag (wget s k) = true -> 1 <= count (kids k) l;
  v_kid : forall k, k < length (k_w s) -> 1 <= count (kids k) l -> w_flag (wget s k) = true;
  v_new : forall k, length (k_w s) <= k -> count (holder k) l = 0 /\ count (flagger k) l = 0 /\ count (kids k) l = 0
      /\ count (refs k) l = 0 /\ count (early k) l = 0 /\ count (last_step k) l = 0;
  v_one : forall k, count (early k) l + count (last_step k) l + (if w_src (wget s k) then 1 else 0) <= 1;
  v_some : forall k, k < length (k_w s) -> w_flag (wget s k) = false ->
      w_src (wget s k) = true \/ w_cnt (wget s k) = None \/ 1 <= count (early k) l + count (last_step k) l;
  v_conn : forall k, k_conn s = Some k -> k < length (k_w s) /\ count (early k) l = 0;
  v_force : forall k, force None tr = Some k <-> k < length (k_w s) /\ w_src (wget s k) = true /\ w_flag (wget s k) = false;
  v_tr : one_at_a_time None tr;
  v_pres : present 0 tr = count inside l;
  v_freed : forall k, In (LOn k) tr -> w_src (wget s k) = true \/ In (LFree k) tr;
  v_mtx : count anyref l = if k_mtx s then 1 else 0;
  v_odd : count odd l = 0
}.

Lemma inv_perm : forall s l l' tr, Permutation l l' -> inv s l tr -> inv s l' tr.
Proof.
  intros s l l' tr P [? ? C SR KI N O SO CO F T PR FR M OD].
  assert (Q : forall f, count f l' = count f l) by (intro f; symmetry; now apply count_perm).
  split; auto; intros; rewrite ?Q; auto.
  - now apply C.
  - apply KI; auto. now rewrite <- Q.
Qed.

Lemma eqb_true : forall a b, (a =? b) = true -> a = b. Proof. intros; now apply Nat.eqb_eq. Qed.
Lemma wget_out : forall s k, length (k_w s) <= k -> wget s k = WR None true false.
Proof. intros. unfold wget. now apply nth_overflow. Qed.
Lemma wget_put : forall s k w j, k < length (k_w s) -> wget (put s k w) j = if j =? k then w else wget s j.
Proof. intros. unfold wget, put. cbn. now apply wset_nth. Qed.

Ltac cc := rewrite ?count_app, ?count_cons, ?count_nil in *; cbn [holder early last_step flagger kids refs anyref inside odd isk] in *;
  rewrite ?Nat.eqb_refl, ?Nat.add_0_r, ?Nat.add_0_l in *; cbn [negb] in *.

Lemma inv_lt : forall s l tr k, inv s l tr -> 1 <= count (holder k) l + count (flagger k) l + count (kids k) l + count (refs k) l + count (early k) l -> k < length (k_w s).
Proof.
  intros s l tr k I H. destruct (Nat.lt_ge_cases k (length (k_w s))); auto.
  destruct (v_new _ _ _ I k H0) as (? & ? & ? & ? & ? & ?). lia.
Qed.
(** A reference is held: the counter is alive and it is the youngest. *)
Lemma inv_held : forall s l tr k, inv s l tr -> 1 <= count (holder k) l ->
  k < length (k_w s) /\ w_flag (wget s k) = false /\ length (k_w s) = S k /\ w_cnt (wget s k) = Some (count (holder k) l).
Proof.
  intros s l tr k I H. assert (L : k < length (k_w s)) by (eapply inv_lt; eauto; lia).
  pose proof (v_cnt _ _ _ I k L) as C. destruct (w_cnt (wget s k)) as [m|]; [|lia].
  destruct C as (-> & _ & F & _). repeat split; auto.
  destruct (Nat.eq_dec (length (k_w s)) (S k)); auto. rewrite (v_old _ _ _ I k) in F by lia. discriminate.
Qed.

Ltac sc f I := let H := fresh in pose proof (f _ _ _ I) as H; cc; exact H.

Ltac spec_all k :=
  repeat match goal with H : forall x : nat, _ |- _ => specialize (H k) end.
Ltac bool_cases :=
  repeat match goal with
  | |- context [?a =? ?b] => destruct (Nat.eqb_spec a b); subst
  | H : context [?a =? ?b] |- _ => destruct (Nat.eqb_spec a b); subst
  end.
Ltac fin := try lia; try congruence; auto; try tauto; try (cbn; intros; first [discriminate|congruence]).

Lemma step_same : forall s it l tr its ls, inv s (it :: l) tr ->
  (forall k, count (holder k) its = count (holder k) [it]) ->
  (forall k, count (flagger k) its = count (flagger k) [it]) ->
  (forall k, count (kids k) its = count (kids k) [it]) ->
  (forall k, count (refs k) its = count (refs k) [it]) ->
  (forall k, count (early k) its = count (early k) [it]) ->
  (forall k, count (last_step k) its = count (last_step k) [it]) ->
  count anyref its = count anyref [it] ->
  count odd its = 0 ->
  (ls = [] /\ count inside its = count inside [it] \/ ls = [LIn] /\ count inside its = S (count inside [it]) \/ ls = [LOut] /\ S (count inside its) = count inside [it]) ->
  inv s (its ++ l) (tr ++ ls).
Proof.
  intros s it l tr its ls [CU OL C SR KI N O SO CO F T PR FR M OD] H1 H2 H3 H4 H5 H6 H7 H8 H9.
  assert (Q : forall f, count f its = count f [it] -> count f (its ++ l) = count f (it :: l)).
  { intros f H. cc. rewrite H. cc. lia. }
  assert (FO : force None (tr ++ ls) = force None tr /\ (forall k, In (LOn k) (tr ++ ls) -> In (LOn k) tr)).
  { rewrite force_app. destruct H9 as [(-> & _)|[(-> & _)|(-> & _)]]; split; auto; intros k Z; apply in_app_iff in Z as [Z|Z]; auto; destruct Z; try discriminate; contradiction. }
  split; auto.
  - intros k K. specialize (C k K). rewrite !Q by auto. exact C.
  - intros k. rewrite Q; auto.
  - intros k. rewrite Q; auto.
  - intros k. rewrite !Q; auto.
  - intros k. rewrite !Q; auto.
  - intros k. rewrite !Q; auto.
  - intros k. rewrite !Q; auto.
  - destruct FO as (-> & _). auto.
  - rewrite one_app. split; auto. destruct H9 as [(-> & _)|[(-> & _)|(-> & _)]]; cbn; auto.
  - rewrite present_app, PR. destruct H9 as [(-> & Z)|[(-> & Z)|(-> & Z)]]; cbn [present]; cc; lia.
  - intros k Z. destruct FO as (_ & FO). apply FO, FR in Z. rewrite in_app_iff. intuition.
  - rewrite Q; auto.
  - cc. lia.
Qed.

Lemma inv_step : forall s it l tr s' its ls, inv s (it :: l) tr -> kstep s it = Some (s', its, ls) -> inv s' (its ++ l) (tr ++ ls).
Proof.
  intros s it l tr s' its ls I E. destruct it as [|k|own up|k|k|k|own|k|k|k|]; cbn [kstep] in E.
  - (* RJoin *)
    destruct (k_mtx s) eqn:MX; [discriminate|].
    assert (NEW : s' = KS (k_w s ++ [WR (Some 1) false false]) (Some (length (k_w s))) false (k_conn s) -> its = [RSubj (Some (length (k_w s))) (Some (length (k_w s)))] -> ls = [] ->
      gone s (k_cur s) = true -> inv s' (its ++ l) (tr ++ ls)).
    { intros -> -> -> G. rewrite app_nil_r. destruct I as [CU OL C SR KI N O SO CO F T PR FR M OD].
      set (n := length (k_w s)) in *.
      assert (LN : forall x, length (k_w s ++ [x]) = S n) by (intro; rewrite app_length; cbn; lia).
      assert (WG : forall j a b c, wget (KS (k_w s ++ [WR (Some 1) false false]) a b c) j = if j =? n then WR (Some 1) false false else wget s j).
      { intros j a b c. unfold wget. cbn. destruct (Nat.eqb_spec j n) as [->|NE].
        - rewrite app_nth2 by (fold n; lia). fold n. now rewrite Nat.sub_diag.
        - destruct (Nat.lt_ge_cases j n); [now rewrite app_nth1|]. rewrite !nth_overflow; auto. rewrite LN. lia. }
      assert (ALL : forall j, j < n -> w_flag (wget s j) = true).
      { intros j J. destruct (Nat.eq_dec (S j) n); [|apply OL; fold n; lia].
        rewrite CU in G. destruct n as [|m] eqn:Z; [lia|]. cbn [gone] in G. now replace j with m by lia. }
      split; cbn [k_cur k_w k_mtx k_conn]; rewrite ?LN; auto.
      - intros j J. rewrite WG. bool_cases; fin. apply ALL. lia.
      - intros j J. rewrite WG. destruct (Nat.eqb_spec j n) as [->|NE]; cbn [w_cnt w_flag].
        + specialize (N n (le_n _)). cc. lia.
        + assert (J' : j < n) by lia. specialize (C j J'). cc. bool_cases; fin. 
      - intros j. rewrite WG. specialize (SR j). cc. bool_cases; cbn; fin.
      - intros j J. rewrite WG. specialize (KI j). specialize (N j). cc. bool_cases; cbn; fin. intro. fin. apply KI; lia.
      - intros j J. specialize (N j). cc. bool_cases; fin; lia.
      - intros j. rewrite WG. specialize (O j). pose proof (N n (le_n _)). cc. 
        destruct (Nat.eqb_spec j n) as [->|NE]; cbn [w_src]; bool_cases; fin.
      - intros j J. rewrite WG. cc. destruct (Nat.eqb_spec j n) as [->|NE]; cbn [w_src w_flag w_cnt].
        + intros _. right. right. rewrite Nat.eqb_refl. lia.
        + intro Z. assert (J' : j < n) by lia. specialize (SO j J' Z). bool_cases; fin.
      - intros j J. specialize (CO j J). cc. bool_cases; fin.
      - intros j. rewrite F, WG. destruct (Nat.eqb_spec j n) as [->|NE]; cbn [w_src w_flag]; intuition; fin.
      - intros j J. rewrite WG. destruct (FR j J); auto. destruct (Nat.eqb_spec j n) as [->|NE]; cbn [w_src]; auto.
        rewrite wget_out in H by (fold n; lia). discriminate.
      - rewrite MX in M. cc. lia.
      - cc. lia. }
    destruct (k_cur s) as [k|] eqn:CU; [|inversion E; subst; now apply NEW].
    destruct (w_flag (wget s k)) eqn:FL; inversion E; subst; [now apply NEW|]. clear NEW E.
    rewrite app_nil_r. destruct I as [CU' OL C SR KI N O SO CO F T PR FR M OD].
    split; cbn [k_cur k_w k_mtx k_conn]; auto; change (wget (KS (k_w s) (Some k) true (k_conn s))) with (wget s); cc; auto; try congruence.
    + intros j J. specialize (N j J). cc. bool_cases; fin.
      rewrite wget_out in FL by auto. discriminate.
    + rewrite MX in M. lia.
  - (* RRef *)
    assert (KL : k < length (k_w s)) by (eapply inv_lt; eauto; cc; lia).
    assert (MX : k_mtx s = true). { pose proof (v_mtx _ _ _ I) as M. cc. destruct (k_mtx s); auto. lia. }
    destruct (w_cnt (wget s k)) as [m|] eqn:CN; inversion E; subst; clear E; rewrite app_nil_r; destruct I as [CU OL C SR KI N O SO CO F T PR FR M OD]; rewrite MX in M.
    + set (w := WR (Some (S m)) (w_flag (wget s k)) (w_src (wget s k))).
      assert (WG : forall j, wget (KS (wset (k_w s) k w) (k_cur s) false (k_conn s)) j = if j =? k then w else wget s j).
      { intro j. unfold wget. cbn. now apply wset_nth. }
      assert (WF : forall j, w_flag (if j =? k then w else wget s j) = w_flag (wget s j)) by (intro j; bool_cases; auto).
      assert (WS : forall j, w_src (if j =? k then w else wget s j) = w_src (wget s j)) by (intro j; bool_cases; auto).
      split; cbn [k_cur k_w k_mtx k_conn]; rewrite ?wset_length; auto; try (intros j; rewrite ?WG, ?WF, ?WS); cc; auto.
      * intro J. specialize (C j J). cc. destruct (Nat.eqb_spec j k) as [->|NE]; [|destruct (Nat.eqb_spec k j); [congruence|exact C]]. rewrite ?Nat.eqb_refl. cbn.
        rewrite CN in C. destruct C as (-> & ? & ? & ?). repeat split; auto; lia.
      * specialize (SR j). cc. exact SR.
      * intro J. specialize (N j J). cc. bool_cases; fin.
      * specialize (O j). cc. exact O.
      * intros J Z. specialize (SO j J Z). cc. destruct SO as [SO|[SO|SO]]; auto. bool_cases; cbn; auto. congruence.
    + split; cbn [k_cur k_w k_mtx k_conn]; auto; change (wget (KS (k_w s) (k_cur s) false (k_conn s))) with (wget s); cc; auto.
      * intros j J. specialize (N j J). cc. bool_cases; fin.
  - (* RSubj *)
    inversion E; subst; clear E. pose proof (v_odd _ _ _ I) as OD. cc.
    destruct up as [k|].
    + destruct own as [j|]; [|cbn in OD; lia]. destruct (Nat.eqb_spec j k); cbn in OD; [subst|lia].
      eapply step_same; eauto; intros; cc; fin.
    + eapply step_same; eauto; intros; cc; fin.
  - (* RCheck *)
    destruct (inv_held _ _ _ k I) as (_ & FL & _); [cc; lia|]. rewrite FL in E. inversion E; subst; clear E.
    eapply step_same; eauto; intros; cc; fin.
  - (* RConn *)
    destruct (inv_held _ _ _ k I) as (KL & FL & LAST & _); [cc; lia|].
    assert (G : gone s (k_conn s) = true).
    { destruct (k_conn s) as [j|] eqn:KC; auto. cbn [gone]. destruct (v_conn _ _ _ I j KC) as (J & Z). cc.
      destruct (Nat.eqb_spec k j); [lia|]. apply (v_old _ _ _ I). lia. }
    rewrite G in E. inversion E; subst; clear E. rewrite app_nil_r.
    destruct I as [CU OL C SR KI N O SO CO F T PR FR M OD].
    split; cbn [k_cur k_w k_mtx k_conn]; auto; change (wget (KS (k_w s) (k_cur s) (k_mtx s) (Some k))) with (wget s); cc; auto.
    + intros j J. specialize (C j J). cc. exact C.
    + intros j J. specialize (N j J). cc. bool_cases; fin.
    + intros j. specialize (O j). cc. lia.
    + intros j J Z. specialize (SO j J Z). cc. destruct SO as [SO|[SO|SO]]; auto. right. right. lia.
    + intros j J. inversion J; subst. split; auto. specialize (O j). cc. lia.
  - (* RSrc *)
    destruct (inv_held _ _ _ k I) as (KL & FL & LAST & _); [cc; lia|]. rewrite FL in E. inversion E; subst; clear E.
    destruct I as [CU OL C SR KI N O SO CO F T PR FR M OD].
    assert (NS : w_src (wget s k) = false). { specialize (O k). cc. destruct (w_src (wget s k)); auto. lia. }
    assert (FN : force None tr = None).
    { destruct (force None tr) as [j|] eqn:Z; auto. destruct (proj1 (F j) eq_refl) as (J & S1 & S2). destruct (Nat.eq_dec (S j) (length (k_w s))).
      - assert (j = k) by lia. subst. congruence.
      - rewrite OL in S2 by lia. discriminate. }
    split; cbn [k_cur k_w k_mtx k_conn put]; rewrite ?wset_length; auto; try (intros j; rewrite ?wget_put by auto); cc; auto.
    + specialize (OL j). bool_cases; fin. 
    + intro J. specialize (C j J). cc. bool_cases; fin. cbn. now rewrite FL in C.
    + specialize (SR j). cc. bool_cases; fin.
    + specialize (KI j). cc. bool_cases; fin. intros J Z. rewrite KI in FL; auto.
    + intro J. specialize (N j J). cc. bool_cases; fin.
    + specialize (O j). cc. bool_cases; fin.  cbn. lia.
    + intros J Z. bool_cases; cbn; auto. specialize (SO j J Z). cc. bool_cases; fin.
    + rewrite force_app, FN. cbn [force]. bool_cases; cbn; [tauto|]. split; [intro Z; inversion Z; congruence|].
      intro Z. apply F in Z. congruence.
    + rewrite one_app, FN. cbn. auto.
    + rewrite present_app. cbn. exact PR.
    + intro Z. apply in_app_iff in Z as [Z|[Z|[]]].
      * destruct (FR j Z); rewrite ?in_app_iff; auto. bool_cases; auto.
      * inversion Z; subst. rewrite Nat.eqb_refl. auto.
  - (* RStay *)
    inversion E; subst; clear E. eapply step_same; eauto; destruct own; intros; cc; fin.
  - (* RRel *)
    destruct (inv_held _ _ _ k I) as (KL & FL & LAST & CN); [cc; lia|]. rewrite CN in E.
    cc. rewrite FL in E.
    destruct (count (holder k) l) as [|m] eqn:HO; cbn in E; inversion E; subst; clear E; rewrite app_nil_r; destruct I as [CU OL C SR KI N O SO CO F T PR FR M OD].
    + split; cbn [k_cur k_w k_mtx k_conn put]; rewrite ?wset_length; auto; try (intros j; rewrite ?wget_put by auto); cc; auto.
      * specialize (OL j). bool_cases; fin.
      * intro J. specialize (C j J). cc. bool_cases; fin. rewrite CN in C. cbn. lia.
      * specialize (SR j). cc. bool_cases; fin.
      * specialize (KI j). cc. bool_cases; fin. intros J Z. rewrite KI in FL; auto.
      * intro J. specialize (N j J). cc. bool_cases; fin.
      * specialize (O j). cc. bool_cases; fin.
      * intros J Z. bool_cases; cbn; auto. specialize (SO j J Z). cc. exact SO.
      * rewrite F. bool_cases; cbn; rewrite ?FL; tauto.
      * intro Z. destruct (FR j Z); auto. bool_cases; auto.
    + split; cbn [k_cur k_w k_mtx k_conn put]; rewrite ?wset_length; auto; try (intros j; rewrite ?wget_put by auto); cc; auto.
      * specialize (OL j). bool_cases; fin.
      * intro J. specialize (C j J). cc. bool_cases; fin. rewrite CN in C. cbn. lia.
      * specialize (SR j). cc. bool_cases; fin.
      * specialize (KI j). cc. bool_cases; fin. intros J Z. rewrite KI in FL; auto.
      * intro J. specialize (N j J). cc. bool_cases; fin.
      * specialize (O j). cc. bool_cases; fin.
      * intros J Z. specialize (SO j J). cc. bool_cases; cbn; auto. rewrite FL in SO. specialize (SO eq_refl). intuition congruence.
      * rewrite F. bool_cases; cbn; rewrite ?FL; tauto.
      * intro Z. destruct (FR j Z); auto. bool_cases; auto.
  - (* RFlag *)
    assert (KL : k < length (k_w s)) by (eapply inv_lt; eauto; cc; lia).
    pose proof (v_cnt _ _ _ I k KL) as CK. cc. inversion E; subst; clear E.
    destruct (w_cnt (wget s k)) eqn:CN; [lia|]. destruct (w_flag (wget s k)) eqn:FL; [lia|].
    destruct I as [CU OL C SR KI N O SO CO F T PR FR M OD].
    split; cbn [k_cur k_w k_mtx k_conn put]; rewrite ?wset_length; auto; try (intros j; rewrite ?wget_put by auto); cc; auto.
    + specialize (OL j). bool_cases; fin.
    + intro J. specialize (C j J). cc. bool_cases; fin. cbn. lia.
    + specialize (SR j). cc. bool_cases; fin. 
    + specialize (KI j). cc. bool_cases; fin.
    + intro J. specialize (N j J). cc. bool_cases; fin.
    + specialize (O j). cc. bool_cases; fin.
    + intros J Z. bool_cases; cbn in *; try discriminate. specialize (SO j J Z). cc. exact SO.
    + rewrite force_app. cbn [force]. pose proof (F j) as Fj. destruct (force None tr) as [i|] eqn:FN.
      * destruct (Nat.eqb_spec j k) as [->|NJ]; cbn [w_src w_flag].
        -- destruct (Nat.eqb_spec i k); split; intro Z; try discriminate; try (destruct Z as (_ & _ & Z); discriminate). congruence.
        -- destruct (Nat.eqb_spec i k) as [->|NI]; [|exact Fj]. split; intro Z; [discriminate|]. apply Fj in Z. congruence.
      * bool_cases; cbn; [intuition discriminate|]. exact Fj.
    + rewrite one_app. cbn. auto.
    + rewrite present_app. cbn. exact PR.
    + intro Z. apply in_app_iff in Z as [Z|[Z|[]]]; [|discriminate].
      destruct (FR j Z); rewrite ?in_app_iff; auto. bool_cases; auto.
  - (* RKids *)
    assert (KL : k < length (k_w s)) by (eapply inv_lt; eauto; cc; lia).
    assert (FL : w_flag (wget s k) = true) by (apply (v_kid _ _ _ I k KL); cc; lia).
    inversion E; subst; clear E.
    assert (FO : force None (tr ++ (if w_src (wget s k) then [LFree k] else [])) = force None tr) by (rewrite force_app; destruct (w_src (wget s k)); auto).
    destruct I as [CU OL C SR KI N O SO CO F T PR FR M OD].
    split; cbn [k_cur k_w k_mtx k_conn put]; rewrite ?wset_length; auto; try (intros j; rewrite ?wget_put by auto); cc; auto.
    + specialize (OL j). bool_cases; fin.
    + intro J. specialize (C j J). cc. bool_cases; fin. rewrite FL in C. cbn. exact C.
    + specialize (SR j). cc. bool_cases; fin.
    + specialize (KI j). cc. bool_cases; fin.
    + intro J. specialize (N j J). cc. bool_cases; fin.
    + specialize (O j). cc. bool_cases; fin. cbn. lia.
    + intros J Z. bool_cases; cbn in *; try discriminate. specialize (SO j J Z). cc. exact SO.
    + rewrite FO, F. bool_cases; cbn; [|tauto]. rewrite FL. intuition discriminate.
    + rewrite one_app. split; auto. destruct (w_src (wget s k)); cbn; auto.
    + rewrite present_app, PR. destruct (w_src (wget s k)); auto.
    + intro Z. apply in_app_iff in Z as [Z|Z].
      * destruct (FR j Z) as [Y|Y]; rewrite ?in_app_iff; auto. bool_cases; auto. rewrite Y. right. right. now left.
      * destruct (w_src (wget s k)); [destruct Z as [Z|[]]; discriminate|destruct Z].
  - (* ROut *)
    inversion E; subst; clear E. eapply step_same; eauto; intros; cc; fin.
Qed.

Lemma inv_init : forall rounds, inv k_init (concat (k_threads rounds)) [].
Proof.
  intro rounds.
  assert (Z : forall f, f RJoin = false -> count f (concat (k_threads rounds)) = 0).
  { intros f H. apply count_zero_of. intros x X. apply in_concat in X as (t & T & X). apply in_map_iff in T as (n & <- & _).
    apply repeat_spec in X. now subst. }
  assert (W : forall k, wget k_init k = WR None true false) by (intros [|k]; reflexivity).
  split; try (intros k); rewrite ?W; cbn [k_init k_w k_cur length w_flag w_src w_cnt k_conn k_mtx]; auto; try (intros; lia); try discriminate.
  - intros _. repeat split; now apply Z.
  - rewrite !Z by reflexivity. lia.
  - cbn. split; [discriminate|]. lia.
  - exact Logic.I.
  - cbn. symmetry. now apply Z.
Qed.
Theorem rc_inv : forall rounds tr c, gexec kstep (k_init, k_threads rounds) tr c -> inv (fst c) (concat (snd c)) tr.
Proof. intros rounds tr c E. eapply (gexec_inv _ inv inv_perm inv_step); eauto. apply inv_init. Qed.

(** Behind the item under way there are only unsubscriptions and later rounds. *)
Definition tail_ok (t : list kitem) : Prop := forall i, In i (tl t) -> i = RJoin \/ i = ROut.
Lemma rc_tails : forall rounds tr c, gexec kstep (k_init, k_threads rounds) tr c -> forall t, In t (snd c) -> tail_ok t.
Proof.
  intros rounds tr c E. pattern (snd c). refine (gexec_tinv _ (fun _ ts _ => forall t, In t ts -> tail_ok t) _ _ _ _ E _).
  - intros s ts1 it rest ts2 tr' s' its ls H ST t T. apply in_app_iff in T as [T|[<-|T]]; [apply H; apply in_app_iff; auto| |apply H; apply in_app_iff; right; now right].
    assert (R : forall i, In i rest -> i = RJoin \/ i = ROut).
    { intros i Hi. apply (H (it :: rest)); auto. apply in_app_iff. right. now left. }
    assert (I1 : (exists i, its = [i]) \/ its = [] \/ exists i, its = [i; ROut]).
    { destruct it as [|k|own up|k|k|k|own|k|k|k|]; cbn [kstep] in ST; repeat match type of ST with context [match ?x with _ => _ end] => destruct x end; inversion ST; subst; eauto. }
    intros i Hi. destruct I1 as [(x & ->)|[->|(x & ->)]]; cbn [app tl] in Hi; auto.
    + destruct rest; [destruct Hi|]. apply R. now right.
    + destruct Hi as [<-|Hi]; auto.
  - cbn. intros t T. apply in_map_iff in T as (n & <- & _). intros i Hi. left. destruct n; [destruct Hi|]. cbn in Hi. now apply repeat_spec in Hi.
Qed.
