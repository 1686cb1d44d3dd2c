(** What a thread puts into a composite and clears afterwards is disposed in the end (C85). *)
From Verif Require Import Base CompositeModel Concur NetSpec NetModel NetProofs.
From Coq Require Import Permutation.
Open Scope nat_scope.

Section Cleared.
  Variable progs : list (list call).
  Variables (k j : nat).
  Hypothesis NE : j <> k.
  Hypothesis NR : ~ In (Remove k j) (concat progs).

  Definition safe (s : net) (l : list nitem) (tr : list nat) : Prop := In j (nt_kids s k) \/ In (NCall (Dispose j)) l \/ In j tr.
  Definition late (s : net) (l : list nitem) (tr : list nat) : Prop := (In j (nt_kids s k) /\ nt_st s k = CDisposed) \/ In (NCall (Dispose j)) l \/ In j tr.

  Lemma kids_step : forall s it l s' its ls, inv2 progs s (it :: l) -> In j (nt_kids s k) -> nstep s it = Some (s', its, ls) -> In j (nt_kids s' k) \/ In (NCall (Dispose j)) its.
  Proof.
    intros s it l s' its ls H2 I ST. destruct it as [[i|i m|i m|i]|i m|i m|i m|i|i|i]; cbn [nstep] in ST.
    - destruct (nt_st s i); try discriminate; injection ST as <- <- <-; auto.
    - destruct (nt_st s m), (m =? i); injection ST as <- <- <-; auto.
    - destruct (nt_st s i); try discriminate; injection ST as <- <- <-; auto.
    - destruct (nt_st s i); try discriminate; injection ST as <- <- <-; auto.
    - destruct (nt_st s i); try discriminate; injection ST as <- <- <-; auto.
    - injection ST as <- <- <-. left. cbn [nt_kids]. destruct (put_case _ i (nt_kids s i ++ [m]) (nt_kids s) k) as [(<- & ->)|(_ & ->)]; auto. apply in_or_app. now left.
    - injection ST as <- <- <-. left. cbn [nt_kids]. destruct (put_case _ i (filter (fun x => negb (x =? m)) (nt_kids s i)) (nt_kids s) k) as [(E & ->)|(_ & ->)]; auto. subst i. apply filter_In. split; auto.
      destruct (Nat.eqb_spec j m) as [<-|]; auto. exfalso. apply NR. apply (j_rem _ _ _ H2). now left.
    - injection ST as <- <- <-. auto.
    - destruct (nt_kids s i) as [|x r] eqn:Q; injection ST as <- <- <-; auto. cbn [nt_kids]. destruct (put_case _ i r (nt_kids s) k) as [(E & ->)|(_ & ->)]; auto. subst i. rewrite Q in I. destruct I as [->|I]; cbn; auto.
    - destruct (nt_kids s i) as [|x r] eqn:Q; injection ST as <- <- <-; auto. cbn [nt_kids]. destruct (put_case _ i r (nt_kids s) k) as [(E & ->)|(_ & ->)]; auto. subst i. rewrite Q in I. destruct I as [->|I]; cbn; auto.
  Qed.
  Lemma disp_step : forall s it l tr s' its ls, inv1 s (it :: l) tr -> In (NCall (Dispose j)) (it :: l) \/ In j tr -> nstep s it = Some (s', its, ls) -> In (NCall (Dispose j)) (its ++ l) \/ In j (tr ++ ls).
  Proof.
    intros s it l tr s' its ls H1 I ST. rewrite !in_app_iff. destruct I as [[->|I]|I]; auto. cbn [nstep] in ST. destruct (nt_st s j) eqn:Q; try discriminate; injection ST as <- <- <-; cbn; auto. right. left. now apply (i_tr _ _ _ H1).
  Qed.
  Lemma safe_step : forall s it l tr s' its ls, inv1 s (it :: l) tr -> inv2 progs s (it :: l) -> safe s (it :: l) tr -> nstep s it = Some (s', its, ls) -> safe s' (its ++ l) (tr ++ ls).
  Proof.
    intros s it l tr s' its ls H1 H2 [I|I] ST; [|right; eapply disp_step; eauto]. unfold safe. rewrite in_app_iff. destruct (kids_step _ _ _ _ _ _ H2 I ST); auto.
  Qed.
  Lemma dead_step : forall s it l tr s' its ls, inv1 s (it :: l) tr -> nt_st s k = CDisposed -> nstep s it = Some (s', its, ls) -> nt_st s' k = CDisposed.
  Proof.
    intros s it l tr s' its ls H1 D ST. pose proof (inv1_step _ _ _ _ _ _ _ H1 ST) as H1'. apply (i_tr _ _ _ H1'). apply in_or_app. left. now apply (i_tr _ _ _ H1).
  Qed.
  Lemma late_step : forall s it l tr s' its ls, inv1 s (it :: l) tr -> inv2 progs s (it :: l) -> late s (it :: l) tr -> nstep s it = Some (s', its, ls) -> late s' (its ++ l) (tr ++ ls).
  Proof.
    intros s it l tr s' its ls H1 H2 [(I & D)|I] ST; [|right; eapply disp_step; eauto]. unfold late. rewrite in_app_iff. destruct (kids_step _ _ _ _ _ _ H2 I ST); auto. left. split; auto. eapply dead_step; eauto.
  Qed.

  (** How far the thread has come. *)
  Inductive stage (s : net) (l : list nitem) (tr : list nat) : list nitem -> Prop :=
  | st_add : forall x b c, stage s l tr (x ++ map NCall (Add k j :: b ++ Clear k :: c))
  | st_in : forall x b c, In (NAddCas k j) x \/ In (NPush k j) x \/ safe s l tr -> stage s l tr (x ++ map NCall (b ++ Clear k :: c))
  | st_clr : forall x r, safe s l tr -> stage s l tr (x ++ NClr k :: r)
  | st_out : forall t, late s l tr -> stage s l tr t.

  Lemma stage_perm : forall s l l' tr t, Permutation l l' -> stage s l tr t -> stage s l' tr t.
  Proof.
    intros s l l' tr t P S. assert (X : In (NCall (Dispose j)) l -> In (NCall (Dispose j)) l') by (intro I; eapply Permutation_in; eauto).
    destruct S as [x b c|x b c H|x r H|t H]; [apply st_add|apply st_in|apply st_clr|apply st_out]; unfold safe, late in *; tauto.
  Qed.
  Lemma stage_other : forall s it l tr s' its ls t, inv1 s (it :: l) tr -> inv2 progs s (it :: l) -> nstep s it = Some (s', its, ls) -> stage s (it :: l) tr t -> stage s' (its ++ l) (tr ++ ls) t.
  Proof.
    intros s it l tr s' its ls t H1 H2 ST S. destruct S as [x b c|x b c [H|[H|H]]|x r H|t H].
    - apply st_add.
    - apply st_in. auto.
    - apply st_in. auto.
    - apply st_in. right. right. eapply safe_step; eauto.
    - apply st_clr. eapply safe_step; eauto.
    - apply st_out. eapply late_step; eauto.
  Qed.
  Lemma stage_mine : forall s it rest l tr s' its ls, inv1 s (it :: l) tr -> inv2 progs s (it :: l) -> nstep s it = Some (s', its, ls) -> stage s (it :: l) tr (it :: rest) -> stage s' (its ++ l) (tr ++ ls) (its ++ rest).
  Proof.
    intros s it rest l tr s' its ls H1 H2 ST S. inversion S as [x b c E|x b c H E|x r H E|t H E]; subst.
    - destruct x as [|y x]; cbn [app map] in E; injection E as E1 E2; subst; [|rewrite app_assoc; apply st_add].
      cbn [nstep] in ST. rewrite (proj2 (Nat.eqb_neq j k) NE) in ST. destruct (nt_st s j) eqn:Q; injection ST as <- <- <-.
      + apply (st_in _ _ _ [NAddCas k j]). left. now left.
      + apply (st_in _ _ _ [NAddCas k j]). left. now left.
      + apply (st_in _ _ _ []). right. right. right. right. rewrite app_nil_r. now apply (i_tr _ _ _ H1).
    - destruct x as [|y x]; cbn [app] in E.
      + assert (SF : safe s (it :: l) tr) by (destruct H as [[]|[[]|H]]; exact H).
        destruct b as [|e b]; cbn [app map] in E; injection E as E1 E2; subst.
        * pose proof (safe_step _ _ _ _ _ _ _ H1 H2 SF ST) as SF'. cbn [nstep] in ST. destruct (nt_st s k) eqn:Q; try discriminate; injection ST as <- <- <-.
          -- apply (st_clr _ _ _ []). exact SF'.
          -- apply st_out. destruct SF' as [I|I]; [left; auto|right; auto].
        * apply st_in. right. right. eapply safe_step; eauto.
      + injection E as E1 E2; subst. rewrite app_assoc. apply st_in. destruct H as [[->|H]|[[->|H]|H]]; rewrite ?in_app_iff; auto.
        * cbn [nstep] in ST. destruct (nt_st s k); try discriminate; injection ST as <- <- <-; [right; left; left; now left|right; right; right; left; now left].
        * injection ST as <- <- <-. right. right. left. cbn [nt_kids]. rewrite put_eq. apply in_or_app. right. now left.
        * right. right. eapply safe_step; eauto.
    - pose proof (safe_step _ _ _ _ _ _ _ H1 H2 H ST) as SF'. destruct x as [|y x]; cbn [app] in E; injection E as E1 E2; subst; [|rewrite app_assoc; now apply st_clr].
      cbn [nstep] in ST. destruct (nt_kids s k) as [|i q] eqn:Q; injection ST as <- <- <-.
      + apply st_out. destruct SF' as [I|I]; [now rewrite Q in I|right; exact I].
      + apply (st_clr _ _ _ [NCall (Dispose i)]). exact SF'.
    - apply st_out. eapply late_step; eauto.
  Qed.

  Lemma cleared_in : forall ps1 a b d ps2, progs = ps1 ++ (a ++ Add k j :: b ++ Clear k :: d) :: ps2 ->
    forall tr c, gexec nstep (n_init progs) tr c -> gfinished c -> In j tr.
  Proof.
    intros ps1 a b d ps2 EP tr c R F.
    assert (INIT : exists us1 t us2, snd (n_init progs) = us1 ++ t :: us2 /\ stage (fst (n_init progs)) (concat (snd (n_init progs))) [] t).
    { exists (map (map NCall) ps1), (map NCall (a ++ Add k j :: b ++ Clear k :: d)), (map (map NCall) ps2). split.
      - cbn. rewrite EP, map_app. reflexivity.
      - rewrite map_app. apply st_add. }
    clear EP. assert (X : exists us1 t us2, snd c = us1 ++ t :: us2 /\ stage (fst c) (concat (snd c)) tr t).
    { clear F. remember (n_init progs) as c0 eqn:Q. induction R as [c|c tr c1 ls c2 E IH G]; subst c; [exact INIT|].
        destruct (IH eq_refl INIT) as (us1 & t & us2 & EQ & S). clear IH. destruct (reach_all _ _ _ E) as (H1 & H2 & _).
        inversion G as [s ts1 it rest ts2 s' its ls' ST]; subst. cbn [fst snd] in *.
        assert (P : Permutation (concat (ts1 ++ (it :: rest) :: ts2)) (it :: rest ++ concat ts1 ++ concat ts2)) by (rewrite concat_app; cbn [concat app]; rewrite <- Permutation_middle; constructor; rewrite !app_assoc; apply Permutation_app_tail; apply Permutation_app_comm).
        assert (P' : Permutation (its ++ rest ++ concat ts1 ++ concat ts2) (concat (ts1 ++ (its ++ rest) :: ts2))) by (rewrite concat_app; cbn [concat]; rewrite <- !app_assoc; symmetry; rewrite Permutation_app_swap_app; apply Permutation_app_head; rewrite Permutation_app_swap_app; reflexivity).
        apply (inv1_perm _ _ _ _ P) in H1. apply (inv2_perm _ _ _ _ P) in H2. apply (stage_perm _ _ _ _ _ P) in S.
        assert (CASE : (ts1 = us1 /\ it :: rest = t /\ ts2 = us2) \/ exists us1' us2', ts1 ++ (its ++ rest) :: ts2 = us1' ++ t :: us2' ).
        { clear - EQ. revert us1 EQ. induction ts1 as [|h ts1 IH]; intros [|g us1] EQ; cbn [app] in EQ.
          - injection EQ as -> ->. auto.
          - injection EQ as <- ->. right. exists ((its ++ rest) :: us1), us2. auto.
          - injection EQ as -> <-. right. exists [], (ts1 ++ (its ++ rest) :: ts2). auto.
          - injection EQ as -> EQ. destruct (IH us1 EQ) as [(-> & <- & ->)|(a' & b' & E)]; auto. right. exists (g :: a'), b'. cbn. now rewrite E. }
        destruct CASE as [(-> & <- & ->)|(us1' & us2' & E')].
        + exists us1, (its ++ rest), us2. repeat split; auto. eapply stage_perm; [exact P'|]. eapply stage_mine; eauto.
        + exists us1', t, us2'. repeat split; auto. eapply stage_perm; [exact P'|]. eapply stage_other; eauto. }
    destruct X as (us1 & t & us2 & EQ & S). assert (t = []) as -> by (apply F; rewrite EQ; apply in_or_app; right; now left).
    rewrite (gfinished_concat _ F) in S. destruct (reach_all _ _ _ R) as (H1 & _ & _). rewrite (gfinished_concat _ F) in H1.
    inversion S as [x b' c' E|x b' c' H E|x r H E|t' H E]; try (destruct x; try discriminate; try (destruct b'; discriminate)).
    destruct H as [(I & D)|[[]|I]]; auto. destruct (i_kids _ _ _ H1 k D) as [Q|[]]. now rewrite Q in I.
  Qed.
End Cleared.
