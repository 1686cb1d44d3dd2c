(** group_by and window followed by merge or switch_on_next: the whole run. *)
From Coq Require Import Sorted.
From Verif Require Import Base Machine MachineProofs ObserverModel MultiSpec MultiModel MultiLin MultiCount MultiProofs MultiSeq OpsSpec OpsModel ChainSpec ChainModel ChainProofs.
From Verif Require Import TreeSpec TreeModel TreeEnd FairModel FairHist SubjSpec FanSpec FanModel RegSpec RegModel RegProofs.
Open Scope nat_scope.

Definition over_as {A C} (e : ev A) : ev C := match e with Err x => Err x | _ => Done end.

Section Runs.
  Context {A C : Type} (c : chain A C) (D : machine C) (L : lawful D) (d0 : mst D).
  Lemma merge_runs : forall sw x lf h (t : list (ev (unit + C))), track c sw x lf h ->
    (t = [] \/ (exists y, t = [Err y]) \/ (t = [Done] /\ forall k, In k (fl_parts c x) -> term (lf k) <> None)) ->
    exists g, until_over (merge_op C) D (g_init _ D d0) (h ++ map (pair 0) t) = Some g /\ g_down g = mrun D d0 (passed h ++ map over_as t).
  Proof.
    intros sw x lf h t T H. assert (LT : length t <= 1) by (destruct H as [->|[(y & ->)|(-> & _)]]; cbn; lia).
    destruct (until_merge C D d0 (h ++ map (pair 0) t) L (tk_fed_all c sw x lf h T t LT)) as (g & U & E). exists g. split; auto. rewrite E. unfold outs. rewrite (tk_live c sw x lf h T t LT).
    rewrite outs_from_app, (tk_merge c sw x lf h T). cbn [app]. destruct H as [->|[(y & ->)|(-> & F)]]; auto.
    cbn [map outs_from app]. rewrite app_nil_r. destruct (merge_end c sw x lf h T F) as [->|(y & I)]; auto.
    rewrite !mrun_app. pose proof (err_over C D d0 _ y L I) as Q. rewrite (mrun_dead C D L (merge_out h 0 Done) _ Q), (mrun_dead C D L [over_as Done] _ Q). reflexivity.
  Qed.
  Lemma switch_runs : forall x lf h (t : list (ev (unit + C))), track c true x lf h ->
    (t = [] \/ (exists y, t = [Err y]) \/ (t = [Done] /\ forall k, In k (fl_parts c x) -> term (lf k) <> None)) ->
    exists g, until_over (switch_op C) D (g_init _ D d0) (h ++ map (pair 0) t) = Some g /\ g_down g = mrun D d0 (passed h ++ map over_as t).
  Proof.
    intros x lf h t T H. assert (LT : length t <= 1) by (destruct H as [->|[(y & ->)|(-> & _)]]; cbn; lia).
    destruct (until_switch C D d0 (h ++ map (pair 0) t) L (tk_fed_all c true x lf h T t LT)) as (g & U & E). exists g. split; auto. rewrite E. unfold outs. rewrite (tk_live c true x lf h T t LT).
    rewrite outs_from_app, (tk_switch c true x lf h T eq_refl). cbn [app]. destruct H as [->|[(y & ->)|(-> & F)]]; auto.
    cbn [map outs_from app]. rewrite app_nil_r. destruct (switch_end c true x lf h T F) as [->|(y & I)]; auto.
    rewrite !mrun_app. pose proof (err_over C D d0 _ y L I) as Q. rewrite (mrun_dead C D L (switch_out h 0 Done) _ Q), (mrun_dead C D L [over_as Done] _ Q). reflexivity.
  Qed.
End Runs.

(** ** group_by *)
Section GroupRun.
  Context {A C : Type} (c : chain A C) (key : A -> nat).

  Lemma has_key_app : forall k (a b : list A), has_key key k (a ++ b) = has_key key k a || has_key key k b.
  Proof. intros. apply existsb_app. Qed.
  Lemma of_key_app : forall k (a b : list A), of_key key k (a ++ b) = of_key key k a ++ of_key key k b.
  Proof. intros. apply filter_app. Qed.
  Lemma of_key_none : forall k (l : list A), has_key key k l = false -> of_key key k l = [].
  Proof. induction l as [|v l IH]; auto. cbn. destruct (key v =? k); cbn; [easy|]. auto. Qed.
  Lemma in_keys : forall k (l : list A), In k (keys_of key l) <-> has_key key k l = true.
  Proof.
    intros k l. unfold keys_of. rewrite filter_In. split; [easy|]. intro H. split; auto. apply in_seq. split; [lia|]. apply existsb_exists in H. destruct H as (v & I & E). apply Nat.eqb_eq in E. subst k.
    pose proof (proj1 (list_max_le (map key l) _) (le_n _)) as F. rewrite Forall_forall in F. specialize (F (key v) (in_map key _ _ I)). lia.
  Qed.
  Lemma seq_sorted : forall n a, StronglySorted lt (seq a n).
  Proof. induction n as [|n IH]; intro a; cbn; constructor; auto. apply Forall_forall. intros x I. apply in_seq in I. lia. Qed.
  Lemma filter_sorted : forall f (l : list nat), StronglySorted lt l -> StronglySorted lt (filter f l).
  Proof.
    induction 1 as [|x l S IH F]; cbn; [constructor|]. destruct (f x); auto. constructor; auto. apply Forall_forall. intros y I. apply filter_In in I. rewrite Forall_forall in F. apply F, I.
  Qed.
  Lemma keys_sorted : forall l, StronglySorted lt (keys_of key l).
  Proof. intro l. apply filter_sorted, seq_sorted. Qed.
  Lemma in_insert : forall k l x, In x (map_insert k l) <-> x = k \/ In x l.
  Proof.
    induction l as [|y l IH]; intro x; cbn [map_insert]; [cbn; intuition congruence|]. destruct (k <? y); [clear IH; cbn; intuition congruence|]. destruct (Nat.eqb_spec k y) as [->|]; cbn; [clear IH; intuition congruence|]. rewrite IH. clear IH. intuition congruence.
  Qed.
  Lemma insert_sorted : forall k l, StronglySorted lt l -> StronglySorted lt (map_insert k l).
  Proof.
    induction l as [|y l IH]; intro S; cbn [map_insert]; [repeat constructor|]. inversion S as [|? ? S1 F]; subst. destruct (Nat.ltb_spec k y).
    - constructor; auto. constructor; auto. rewrite Forall_forall in *. intros z I. specialize (F z I). lia.
    - destruct (Nat.eqb_spec k y); auto. constructor; auto. rewrite Forall_forall in *. intros z I. apply in_insert in I. destruct I as [->|I]; [lia|auto].
  Qed.
  Lemma sorted_eq : forall a b : list nat, StronglySorted lt a -> StronglySorted lt b -> (forall x, In x a <-> In x b) -> a = b.
  Proof.
    induction a as [|x a IH]; intros b SA SB E.
    - destruct b as [|y b]; auto. exfalso. apply (E y). now left.
    - destruct b as [|y b]; [exfalso; apply (E x); now left|]. inversion SA as [|? ? SA1 FA]; inversion SB as [|? ? SB1 FB]; subst. rewrite Forall_forall in *.
      assert (x = y). { destruct (proj1 (E x) (or_introl eq_refl)) as [|I]; auto. destruct (proj2 (E y) (or_introl eq_refl)) as [|J]; auto. specialize (FA y J). specialize (FB x I). lia. }
      subst y. f_equal. apply IH; auto. intro z. split; intro I.
      + destruct (proj1 (E z) (or_intror I)) as [<-|]; auto. specialize (FA x I). lia.
      + destruct (proj2 (E z) (or_intror I)) as [<-|]; auto. specialize (FB x I). lia.
  Qed.
  Lemma keys_snoc : forall l v, keys_of key (l ++ [v]) = map_insert (key v) (keys_of key l).
  Proof.
    intros l v. apply sorted_eq; [apply keys_sorted|apply insert_sorted, keys_sorted|]. intro k. rewrite in_insert, !in_keys, has_key_app. cbn. rewrite orb_false_r, orb_true_iff, Nat.eqb_eq. intuition.
  Qed.
  Lemma known_key : forall k l, existsb (Nat.eqb k) (keys_of key l) = has_key key k l.
  Proof.
    intros k l. apply Bool.eq_iff_eq_true. rewrite <- in_keys, existsb_exists. split.
    - intros (y & I & E). apply Nat.eqb_eq in E. now subst.
    - intro I. exists k. split; auto. apply Nat.eqb_refl.
  Qed.

  Record grp (past : list A) (x : flat c) (lf : nat -> list (ev A)) (h : hist (unit + C)) : Prop := GR {
    gr_tk : track c false x lf h;
    gr_in : forall k, In k (fl_parts c x) <-> has_key key k past = true;
    gr_lf : forall k, In k (fl_parts c x) -> lf k = map Next (of_key key k past) }.

  Lemma grp_step : forall past x lf h v, grp past x lf h ->
    exists x' lf' h', grp (past ++ [v]) x' lf' (h ++ h') /\
      (forall r, flat_calls c x (snd (regroup_plan key (keys_of key past) (Next v)) ++ r) = h' ++ flat_calls c x' r) /\
      passed h' = (if has_key key (key v) past then [] else open_end (shown c [])) ++ open_end (more c (map Next (of_key key (key v) past)) (Next v)).
  Proof.
    intros past x lf h v [T I F]. cbn [regroup_plan snd]. rewrite known_key.
    assert (OK : forall k, k <> key v -> of_key key k (past ++ [v]) = of_key key k past).
    { intros k N. rewrite of_key_app. cbn. rewrite (proj2 (Nat.eqb_neq (key v) k)) by auto. now rewrite app_nil_r. }
    assert (OV : of_key key (key v) (past ++ [v]) = of_key key (key v) past ++ [v]) by (rewrite of_key_app; cbn; now rewrite Nat.eqb_refl).
    destruct (has_key key (key v) past) eqn:K; cbn [app].
    - pose proof (proj2 (I _) K) as IK. destruct (track_emit c false x lf h (key v) (Next v) T IK ltac:(discriminate)) as (T1 & P1). rewrite (F _ IK) in *.
      eexists _, _, _. split; [|split; [intro r; cbn [flat_calls]; reflexivity|exact P1]].
      constructor; [exact T1| |].
      + intro k. cbn [flat_step fst fl_parts]. rewrite I, has_key_app. cbn. rewrite orb_false_r. destruct (Nat.eqb_spec (key v) k) as [<-|]; [rewrite K; intuition|now rewrite orb_false_r].
      + intros k. cbn [flat_step fst fl_parts]. intro J. unfold upd. destruct (Nat.eqb_spec k (key v)) as [->|N]; [now rewrite OV, map_app|]. rewrite OK by auto. auto.
    - assert (NI : ~ In (key v) (fl_parts c x)) by (rewrite I, K; discriminate).
      destruct (track_new c false x lf h (key v) T NI) as (T1 & P1). set (x1 := fst (flat_step c x (MNew (key v)))) in *. set (h1 := snd (flat_step c x (MNew (key v)))) in *.
      assert (IK : In (key v) (fl_parts c x1)) by (unfold x1; cbn; apply in_or_app; right; now left).
      destruct (track_emit c false x1 _ _ (key v) (Next v) T1 IK ltac:(discriminate)) as (T2 & P2). unfold upd in P2. rewrite Nat.eqb_refl in P2. rewrite (of_key_none _ _ K) in *. cbn [map app] in *.
      exists (fst (flat_step c x1 (MEmit (key v) (Next v)))). eexists _, (h1 ++ snd (flat_step c x1 (MEmit (key v) (Next v)))). split; [|split].
      + rewrite app_assoc. constructor; [exact T2| |].
        * intro k. cbn [flat_step fst fl_parts x1]. rewrite in_app_iff, I, has_key_app. cbn. rewrite orb_false_r, orb_true_iff, Nat.eqb_eq. intuition.
        * intros k. cbn [flat_step fst fl_parts x1]. rewrite in_app_iff. intro J. unfold upd. destruct (Nat.eqb_spec k (key v)) as [->|N].
          -- now rewrite OV, Nat.eqb_refl.
          -- rewrite OK by auto. apply F. destruct J as [J|[J|[]]]; auto. congruence.
      + intro r. cbn [flat_calls]. fold x1 h1. now rewrite <- app_assoc.
      + rewrite passed_app, P1, P2. reflexivity.
  Qed.
  Lemma grp_run : forall vs past x lf h, grp past x lf h ->
    exists x' lf' h', grp (past ++ vs) x' lf' (h ++ h') /\
      (forall t, flat_calls c x (plan_all (regroup_plan key) (keys_of key past) (map Next vs ++ t)) = h' ++ flat_calls c x' (plan_all (regroup_plan key) (keys_of key (past ++ vs)) t)) /\
      passed h' = regrouped c key past vs.
  Proof.
    induction vs as [|v vs IH]; intros past x lf h G.
    - exists x, lf, []. rewrite !app_nil_r. auto.
    - destruct (grp_step past x lf h v G) as (x1 & lf1 & h1 & G1 & E1 & P1). destruct (IH _ _ _ _ G1) as (x2 & lf2 & h2 & G2 & E2 & P2). rewrite <- app_assoc in G2, E2. cbn [app] in G2, E2. rewrite <- app_assoc in G2.
      exists x2, lf2, (h1 ++ h2). split; auto. split.
      + intro t. cbn [map app plan_all]. rewrite E1. cbn [regroup_plan fst]. rewrite <- keys_snoc, E2. now rewrite <- app_assoc.
      + rewrite passed_app, P1, P2. cbn [regrouped]. now rewrite <- app_assoc.
  Qed.
  Lemma all_end : forall e ks x lf h, NoDup ks -> (forall k, In k ks -> In k (fl_parts c x)) -> track c false x lf h ->
    exists x' lf' h', track c false x' lf' (h ++ h') /\ fl_parts c x' = fl_parts c x /\
      (forall r, flat_calls c x (map (fun k => MEmit k e) ks ++ r) = h' ++ flat_calls c x' r) /\
      passed h' = flat_map (fun k => open_end (more c (lf k) e)) ks /\
      (forall k, lf' k = if existsb (Nat.eqb k) ks then lf k ++ [e] else lf k).
  Proof.
    induction ks as [|k ks IH]; intros x lf h N I T.
    - exists x, lf, []. rewrite app_nil_r. cbn. auto.
    - inversion N as [|? ? NI N1]; subst. destruct (track_emit c false x lf h k e T (I k (or_introl eq_refl)) ltac:(discriminate)) as (T1 & P1).
      destruct (IH (fst (flat_step c x (MEmit k e))) _ _ N1 (fun j J => I j (or_intror J)) T1) as (x2 & lf2 & h2 & T2 & Q2 & E2 & P2 & F2).
      exists x2, lf2, (snd (flat_step c x (MEmit k e)) ++ h2). rewrite app_assoc. split; auto. split; [now rewrite Q2|]. split; [|split].
      + intro r. cbn [map app flat_calls]. rewrite E2. now rewrite app_assoc.
      + rewrite passed_app, P1, P2. cbn [flat_map]. f_equal. apply flat_map_ext_in. intros j J. unfold upd. destruct (Nat.eqb_spec j k) as [->|]; [contradiction|reflexivity].
      + intro j. rewrite F2. cbn [existsb]. unfold upd. destruct (Nat.eqb_spec j k) as [->|]; cbn [orb]; auto. destruct (existsb (Nat.eqb k) ks) eqn:Q; auto. exfalso. apply existsb_exists in Q. destruct Q as (y & J & Z). apply Nat.eqb_eq in Z. now subst.
  Qed.
  Lemma sorted_nodup : forall l : list nat, StronglySorted lt l -> NoDup l.
  Proof. induction 1 as [|x l S IH F]; constructor; auto. intro I. rewrite Forall_forall in F. specialize (F x I). lia. Qed.

  Lemma group_run : forall vs t, tpart t -> exists x lf h,
    flat_calls c (fl_init c) (plan_all (regroup_plan key) [] (map Next vs ++ t)) = h ++ map (pair 0) (map over_as t) /\ track c false x lf h /\
    passed h ++ map over_as (map (@over_as A (unit + C)) t) = regrouped c key [] vs ++ regrouped_end c key vs t /\ (t <> [] -> forall k, In k (fl_parts c x) -> term (lf k) <> None).
  Proof.
    intros vs t TP. destruct (grp_run vs [] (fl_init c) (fun _ => []) []) as (x & lf & h & [T I F] & E & P).
    { constructor; [apply track_init| |]; cbn; easy. }
    cbn [app] in *. change (keys_of key []) with (@nil nat) in E.
    assert (K : t = [] \/ exists e, t = [e] /\ is_term e = true) by (destruct TP as [->|[->|(y & ->)]]; [now left|right; eauto..]).
    destruct K as [->|(e & -> & TE)].
    - exists x, lf, h. rewrite (E []). cbn. rewrite !app_nil_r. repeat split; auto; try apply T.
    - destruct (all_end e (keys_of key vs) x lf h) as (x2 & lf2 & h2 & T2 & Q2 & E2 & P2 & F2); auto.
      { apply sorted_nodup, keys_sorted. }
      { intros k J. apply I. now apply in_keys. }
      exists x2, lf2, (h ++ h2). split; [|split; [exact T2|split]].
      + rewrite (E [e]). replace (plan_all (regroup_plan key) (keys_of key vs) [e]) with (map (fun k => MEmit k e) (keys_of key vs) ++ [MOut (up e)]) by (destruct e; [discriminate| |]; cbn; now rewrite app_nil_r).
        rewrite E2, <- app_assoc. destruct e; [discriminate| |]; reflexivity.
      + rewrite passed_app, P, P2, <- app_assoc. f_equal. cbn [regrouped_end map]. f_equal; [|now destruct e]. apply flat_map_ext_in. intros k J. rewrite F; auto. apply I. now apply in_keys.
      + intros _ k J. rewrite F2. rewrite Q2 in J. rewrite known_key. rewrite (proj1 (I k) J), (F k J), term_app. destruct e; [discriminate| |]; discriminate.
  Qed.
End GroupRun.

(** ** window *)
Section WindowRun.
  Context {A C : Type} (c : chain A C) (n : nat) (POS : 1 <= n).
  Notation plan := (fun (x : wst) (e : ev A) => w_plan n x false e).

  Lemma mod_S : forall l, S l mod n = if S (l mod n) =? n then 0 else S (l mod n).
  Proof.
    intro l. pose proof (Nat.div_mod l n ltac:(lia)) as E. pose proof (Nat.mod_upper_bound l n ltac:(lia)) as U. destruct (Nat.eqb_spec (S (l mod n)) n) as [Q|Q].
    - symmetry. apply (Nat.mod_unique _ _ (S (l / n))); [lia|]. rewrite Nat.mul_succ_r. lia.
    - symmetry. apply (Nat.mod_unique _ _ (l / n)); lia.
  Qed.
  Lemma current_0 : forall past : list A, length past mod n = 0 -> current n past = [].
  Proof. intros past E. unfold current. rewrite E, Nat.sub_0_r. apply skipn_all. Qed.
  Lemma current_snoc : forall (past : list A) v, S (length past) mod n <> 0 -> current n (past ++ [v]) = current n past ++ [v].
  Proof.
    intros past v H. unfold current. rewrite app_length. cbn [length]. rewrite Nat.add_1_r. rewrite mod_S in *. destruct (S (length past mod n) =? n); [easy|].
    rewrite skipn_app. pose proof (Nat.mod_le (length past) n ltac:(lia)). replace (S (length past) - S (length past mod n)) with (length past - length past mod n) by lia.
    f_equal. replace (length past - length past mod n - length past) with 0 by lia. reflexivity.
  Qed.
  Lemma pos_last : forall j, S (pos j (seq 0 (S j))) = length (seq 0 (S j)).
  Proof.
    intro j. rewrite seq_length. f_equal. assert (I : In j (seq 0 (S j))) by (apply in_seq; lia). pose proof (pos_in _ _ I) as E. pose proof (pos_lt _ _ I) as LT. rewrite seq_length in LT.
    apply (nth_error_nth _ _ 0) in E. rewrite seq_nth in E by auto. lia.
  Qed.

  Record win (past : list A) (x : flat c) (w : wst) (lf : nat -> list (ev A)) (h : hist (unit + C)) : Prop := WN {
    wn_tk : track c true x lf h;
    wn_parts : fl_parts c x = seq 0 (w_num w);
    wn_open : w_open w = negb (length past mod n =? 0);
    wn_cnt : w_cnt w = if length past mod n =? 0 then n else length past mod n;
    wn_cur : length past mod n <> 0 -> exists j, w_num w = S j /\ lf j = map Next (current n past);
    wn_old : forall k, k < w_num w -> (length past mod n <> 0 -> S k <> w_num w) -> term (lf k) <> None }.

  (** One value into the open window. *)
  Lemma win_value : forall past x lf h v j, track c true x lf h -> fl_parts c x = seq 0 (S j) -> lf j = map Next (current n past) ->
    (forall k, k < j -> term (lf k) <> None) ->
    exists x' lf' h', win (past ++ [v]) x' (if S (length past mod n) =? n then WS (S j) false n else WS (S j) true (S (length past mod n))) lf' (h ++ h') /\
      (forall r, flat_calls c x ([MEmit j (Next v)] ++ (if S (length past mod n) =? n then [MEmit j Done; MLost j] else []) ++ r) = h' ++ flat_calls c x' r) /\
      passed h' = open_end (more c (map Next (current n past)) (Next v)) ++ (if S (length past) mod n =? 0 then open_end (more c (map Next (current n past ++ [v])) Done) else []).
  Proof.
    intros past x lf h v j T PT LF OLD. assert (IJ : In j (fl_parts c x)) by (rewrite PT; apply in_seq; lia).
    destruct (track_emit c true x lf h j (Next v) T IJ ltac:(intros _; rewrite PT; apply pos_last)) as (T1 & P1). rewrite LF in P1.
    set (x1 := fst (flat_step c x (MEmit j (Next v)))) in *. set (h1 := snd (flat_step c x (MEmit j (Next v)))) in *. set (lf1 := upd lf j (lf j ++ [Next v])) in *.
    assert (PT1 : fl_parts c x1 = seq 0 (S j)) by exact PT.
    assert (LF1 : lf1 j = map Next (current n past ++ [v])) by (unfold lf1, upd; now rewrite Nat.eqb_refl, LF, map_app).
    assert (OLD1 : forall k, k < j -> term (lf1 k) <> None) by (intros k K; unfold lf1, upd; rewrite (proj2 (Nat.eqb_neq k j)) by lia; auto).
    pose proof (mod_S (length past)) as MS. destruct (S (length past mod n) =? n) eqn:FULL.
    - rewrite MS. cbn [Nat.eqb].
      destruct (track_emit c true x1 lf1 (h ++ h1) j Done T1 IJ ltac:(intros _; rewrite PT1; apply pos_last)) as (T2 & P2). rewrite LF1 in P2.
      exists (fst (flat_step c x1 (MEmit j Done))), (upd lf1 j (lf1 j ++ [Done])), (h1 ++ snd (flat_step c x1 (MEmit j Done))). split; [|split].
      + rewrite app_assoc. constructor; cbn [w_num w_open w_cnt]; rewrite ?app_length; cbn [length]; rewrite ?Nat.add_1_r, ?MS; auto; try easy.
        intros k K _. unfold upd. destruct (Nat.eqb_spec k j) as [->|N]; [rewrite LF1, term_app; discriminate|]. apply OLD1. lia.
      + intro r. cbn [app flat_calls]. fold x1 h1. rewrite <- app_assoc. reflexivity.
      + rewrite passed_app, P1, P2. reflexivity.
    - exists x1, lf1, h1. rewrite MS. cbn [Nat.eqb]. split; [|split].
      + constructor; cbn [w_num w_open w_cnt]; rewrite ?app_length; cbn [length]; rewrite ?Nat.add_1_r, ?MS; auto.
        * intros _. exists j. split; auto. rewrite LF1. f_equal. symmetry. apply current_snoc. rewrite MS. discriminate.
        * intros k K H. apply OLD1. specialize (H ltac:(discriminate)). lia.
      + intro r. cbn [app flat_calls]. reflexivity.
      + now rewrite P1, app_nil_r.
  Qed.
  Lemma win_step : forall past x w lf h v, win past x w lf h ->
    exists x' lf' h', win (past ++ [v]) x' (fst (w_plan n w false (Next v))) lf' (h ++ h') /\
      (forall r, flat_calls c x (snd (w_plan n w false (Next v)) ++ r) = h' ++ flat_calls c x' r) /\
      passed h' = (if length past mod n =? 0 then open_end (shown c []) else []) ++ open_end (more c (map Next (current n past)) (Next v)) ++
                  (if S (length past) mod n =? 0 then open_end (more c (map Next (current n past ++ [v])) Done) else []).
  Proof.
    intros past x w lf h v [T PT OP CNT CUR OLD]. pose proof (Nat.mod_upper_bound (length past) n ltac:(lia)) as U. destruct (length past mod n =? 0) eqn:Z; cbn [negb] in *.
    - apply Nat.eqb_eq in Z. assert (NI : ~ In (w_num w) (fl_parts c x)) by (rewrite PT, in_seq; lia).
      destruct (track_new c true x lf h (w_num w) T NI) as (T1 & P1). set (x1 := fst (flat_step c x (MNew (w_num w)))) in *. set (h1 := snd (flat_step c x (MNew (w_num w)))) in *.
      assert (PT1 : fl_parts c x1 = seq 0 (S (w_num w))) by (unfold x1; cbn [flat_step fst fl_parts]; rewrite PT, seq_S; reflexivity).
      destruct (win_value past x1 _ _ v (w_num w) T1 PT1) as (x2 & lf2 & h2 & W2 & E2 & P2).
      { unfold upd. rewrite Nat.eqb_refl, current_0 by auto. reflexivity. }
      { intros k K. unfold upd. rewrite (proj2 (Nat.eqb_neq k (w_num w))) by lia. apply OLD; auto. }
      exists x2, lf2, (h1 ++ h2). rewrite Z in W2, E2. unfold w_plan. rewrite CNT, Nat.eqb_refl. cbn [w_num w_cnt w_open fst snd]. replace (S (w_num w) - 1) with (w_num w) by lia. split; [|split].
      + rewrite app_assoc. destruct (Nat.eqb_spec 1 n) as [Q|Q]; [rewrite Q; exact W2|exact W2].
      + intro r. rewrite <- !app_assoc. rewrite <- E2. reflexivity.
      + rewrite passed_app, P1, P2. reflexivity.
    - apply Nat.eqb_neq in Z. destruct (CUR Z) as (j & NJ & LF).
      destruct (win_value past x lf h v j T ltac:(now rewrite PT, NJ) LF) as (x2 & lf2 & h2 & W2 & E2 & P2).
      { intros k K. apply OLD; [lia|]. intros _. lia. }
      exists x2, lf2, h2. assert (NF : (w_cnt w =? n) = false) by (rewrite CNT; apply Nat.eqb_neq; lia). unfold w_plan. rewrite NF, CNT. replace (w_num w - 1) with j by lia. cbn [fst snd]. split; [|split]; auto.
      + rewrite NJ, OP. destruct (Nat.eqb_spec (S (length past mod n)) n) as [Q|Q]; [rewrite Q; exact W2|exact W2].
  Qed.
  Lemma win_run : forall vs past x w lf h, win past x w lf h ->
    exists x' w' lf' h', win (past ++ vs) x' w' lf' (h ++ h') /\
      (forall t, flat_calls c x (plan_all plan w (map Next vs ++ t)) = h' ++ flat_calls c x' (plan_all plan w' t)) /\
      passed h' = rewindowed c n past vs.
  Proof.
    induction vs as [|v vs IH]; intros past x w lf h G.
    - exists x, w, lf, []. rewrite !app_nil_r. auto.
    - destruct (win_step past x w lf h v G) as (x1 & lf1 & h1 & G1 & E1 & P1). destruct (IH _ _ _ _ _ G1) as (x2 & w2 & lf2 & h2 & G2 & E2 & P2). rewrite <- !app_assoc in G2. cbn [app] in G2.
      exists x2, w2, lf2, (h1 ++ h2). split; auto. split.
      + intro t. cbn [map app plan_all]. rewrite E1, E2. now rewrite <- app_assoc.
      + rewrite passed_app, P1, P2. cbn [rewindowed]. now rewrite <- !app_assoc.
  Qed.
  Lemma window_run : forall vs t, tpart t -> exists x lf h,
    flat_calls c (fl_init c) (plan_all plan (w_init n) (map Next vs ++ t)) = h ++ map (pair 0) (map over_as t) /\ track c true x lf h /\
    passed h ++ map over_as (map (@over_as A (unit + C)) t) = rewindowed c n [] vs ++ rewindowed_end c n vs t /\ (t <> [] -> forall k, In k (fl_parts c x) -> term (lf k) <> None).
  Proof.
    intros vs t TP. destruct (win_run vs [] (fl_init c) (w_init n) (fun _ => []) []) as (x & w & lf & h & [T PT OP CNT CUR OLD] & E & P).
    { constructor; cbn [w_init w_num w_open w_cnt length]; rewrite ?Nat.mod_0_l by lia; auto; try easy. apply track_init. }
    cbn [app] in *.
    assert (K : t = [] \/ exists e, t = [e] /\ is_term e = true) by (destruct TP as [->|[->|(y & ->)]]; [now left|right; eauto..]).
    destruct K as [->|(e & -> & TE)].
    - exists x, lf, h. rewrite (E []). cbn. rewrite !app_nil_r. repeat split; auto; try apply T.
    - assert (PL : plan_all plan w [e] = (if w_open w then [MEmit (w_num w - 1) e] else []) ++ [MOut (up e)]) by (destruct e; [discriminate| |]; cbn; now rewrite app_nil_r).
      rewrite E, PL, OP. cbn [rewindowed_end]. destruct (length vs mod n =? 0) eqn:Z; cbn [negb app].
      + exists x, lf, h. apply Nat.eqb_eq in Z. split; [destruct e; [discriminate| |]; reflexivity|]. split; auto. split; [rewrite P; now destruct e|].
        intros _ k J. rewrite PT in J. apply in_seq in J. apply OLD; [lia|congruence].
      + apply Nat.eqb_neq in Z. destruct (CUR Z) as (j & NJ & LF). replace (w_num w - 1) with j by lia.
        assert (PJ : fl_parts c x = seq 0 (S j)) by now rewrite PT, NJ.
        destruct (track_emit c true x lf h j e T ltac:(rewrite PJ; apply in_seq; lia) ltac:(intros _; rewrite PJ; apply pos_last)) as (T1 & P1). rewrite LF in P1.
        exists (fst (flat_step c x (MEmit j e))), (upd lf j (lf j ++ [e])), (h ++ snd (flat_step c x (MEmit j e))). split; [|split; [exact T1|split]].
        * cbn [flat_calls]. rewrite <- app_assoc. do 2 f_equal. destruct e; [discriminate| |]; reflexivity.
        * rewrite passed_app, P, P1, <- app_assoc. now destruct e.
        * intros _ k J. change (In k (fl_parts c x)) in J. rewrite PJ in J. apply in_seq in J. unfold upd. destruct (Nat.eqb_spec k j) as [->|N].
          -- rewrite LF, term_app. destruct e; [discriminate| |]; discriminate.
          -- apply OLD; lia.
  Qed.
End WindowRun.
