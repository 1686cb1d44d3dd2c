(** timeout: the mutex serializes the source's callbacks and the switch. *)
From Verif Require Import Base Machine MachineProofs Concur DelaySpec TmoSpec TmoModel.

Section Trace.
  Context {V : Type} (d : nat) (exact : bool).
  Lemma watch_app : forall (a b : list (tlab V)) m, watch d exact m (a ++ b) = match watch d exact m a with Some m' => watch d exact m' b | None => None end.
  Proof. induction a as [|l a IH]; intros b m; cbn; auto. destruct (check d exact m l); auto. Qed.
  Lemma of_src_app : forall a b : list (tlab V), of_src (a ++ b) = of_src a ++ of_src b.
  Proof. intros. apply flat_map_app. Qed.
  Lemma of_fb_app : forall a b : list (tlab V), of_fb (a ++ b) = of_fb a ++ of_fb b.
  Proof. intros. apply flat_map_app. Qed.
End Trace.

Section Proofs.
  Context {V : Type} (D : machine V) (single prompt : bool) (period : nat) (src0 fb0 : list (ev V)) (d0 : mst D) (kills : nat).
  Hypothesis LD : lawful D.
  Notation st := (ust D).
  Notation step := (ustep D single prompt period).
  Notation watch := (watch period prompt).

  Definition inback (p : @apc V) : bool := match p with ABack _ => true | _ => false end.
  Definition pend (p : @apc V) : list (ev V) := match p with ALock e => [e] | _ => [] end.
  Definition holds (p : ttpc) : bool := match p with TSub | TUnlock => true | _ => false end.

  Record inv (s : st) (tr : list (tlab V)) (last : nat) (dead : bool) : Prop := IV {
    i_mon : watch m_init tr = Some (Mon last (u_rel s) (u_sw s) (u_busy s || inback (u_s s)) dead);
    i_dead : dead = true -> mdisp D (u_d s) = true;
    i_prompt : prompt = true -> u_rel s = false -> mdisp D (u_d s) = false -> u_now s <= u_time s;
    i_last : u_rel s = false -> mdisp D (u_d s) = false -> u_time s = last + period;
    i_lock : u_lock s = inback (u_s s) || holds (u_t s);
    i_both : inback (u_s s) = true -> holds (u_t s) = false /\ u_rel s = false;
    i_t : match u_t s with TSub => u_rel s = true /\ u_sw s = false | TUnlock => u_rel s = true /\ u_sw s = true
          | TOver => gone D s = true /\ u_sw s = u_rel s | TWait t => t <= u_time s /\ u_rel s = false /\ u_sw s = false | TRun => u_rel s = false /\ u_sw s = false end;
    i_busy : u_busy s = true -> u_sw s = true;
    i_single : single = true -> u_rel s = true -> u_s s = ANext;
    i_src : u_rel s = false -> mdisp D (u_d s) = false -> clip src0 = of_src tr ++ clip (pend (u_s s) ++ u_src s);
    i_pre : exists rest, clip src0 = of_src tr ++ rest;
    i_fb : mdisp D (u_d s) = false -> clip fb0 = of_fb tr ++ clip (u_fb s);
    i_pfb : exists rest, clip fb0 = of_fb tr ++ rest;
    i_nofb : u_sw s = false -> of_fb tr = [];
    i_d : u_d s = mrun D d0 (of_src tr ++ of_fb tr) \/ kills <> 0 /\ mdisp D (u_d s) = true /\ u_d s = mkill D (mrun D d0 (of_src tr ++ of_fb tr));
    i_term : match u_s s with ABack e => is_term e = true -> mdisp D (u_d s) = true | _ => True end;
    i_swin : u_sw s = true -> exists t, In (CSwitch t) tr;
    i_mv : u_moved s = false;
    i_tm : u_time s <= u_now s + period
  }.
  Definition Inv (s : st) (tr : list (tlab V)) : Prop :=
    (exists last dead, inv s tr last dead) \/
    u_moved s = true /\ single = false /\ exists tr' v t, tr = tr' ++ [CMoved v] /\ follows period prompt tr' /\ In (CSwitch t) tr'.

  Ltac fields := unfold gone in *; cbn [u_src u_fb u_s u_t u_busy u_lock u_time u_rel u_sw u_now u_moved u_d set_us set_ut set_lock set_ud inback pend holds orb andb negb app] in *.

  Lemma clip_next : forall (v : V) r, clip (Next v :: r) = Next v :: clip r.
  Proof. reflexivity. Qed.
  Lemma clip_term : forall (e : ev V) r, is_term e = true -> clip (e :: r) = [e].
  Proof. intros [| |] r H; try discriminate; reflexivity. Qed.
  Lemma clip_cons : forall (e : ev V) r, exists rest, clip (e :: r) = e :: rest.
  Proof. intros [v|x|] r; cbn; eauto. Qed.

  Lemma Inv_src : forall s tr s' its ls, Inv s tr -> step s USrc = Some (s', its, ls) -> Inv s' (tr ++ ls).
  Proof.
    intros s tr s' its ls [(last & dead & I)|(M & _)] E; unfold ustep in E; [|rewrite M in E; discriminate].
    pose proof I as [MO DE PR LA LO BO TT BU SI SR PRE FB PFB NF DD TE SW MV TM]. rewrite MV in E. unfold usrc in E.
    destruct (u_s s) as [|e|e] eqn:ES.
    - destruct (u_src s) as [|e r] eqn:SC; [inversion E; subst s' its ls; rewrite app_nil_r; left; eauto|].
      left. exists last, dead. unfold gone in E. destruct (u_rel s || mdisp D (u_d s)) eqn:G; inversion E; subst s' its ls; clear E; rewrite app_nil_r.
      + split; fields; auto. intros R L. rewrite R, L in G. discriminate.
      + apply Bool.orb_false_iff in G as (G1 & G2). split; fields; auto. intros _ R. congruence.
    - destruct (u_lock s) eqn:LK; [discriminate|]. fields. symmetry in LO.
      assert (RS : u_sw s = u_rel s) by (destruct (u_t s); try discriminate LO; destruct TT; intuition congruence).
      assert (CALL : u_rel s = false -> mdisp D (u_d s) = false -> s' = set_lock D (set_us D (set_ud D s (mstep D (u_d s) e)) (u_src s) (ABack e)) true ->
        ls = [CSrc e (u_now s)] -> Inv s' (tr ++ ls)).
      { intros R L -> ->. left. exists last, (is_term e). fields.
        assert (dead = false) by (destruct dead; auto; rewrite DE in L; auto). subst dead.
        assert (BB : u_busy s = false) by (destruct (u_busy s); auto; rewrite BU in RS; auto; congruence).
        assert (OF : of_fb tr = []) by (apply NF; congruence).
        assert (SRC : of_src (tr ++ [CSrc e (u_now s)]) = of_src tr ++ [e]) by (rewrite of_src_app; reflexivity).
        assert (SFB : of_fb (tr ++ [CSrc e (u_now s)]) = []) by (rewrite of_fb_app, OF; reflexivity).
        destruct (clip_cons e (u_src s)) as (rest & CL).
        split; fields; rewrite ?SRC, ?SFB; auto.
        - rewrite watch_app, MO, R, RS, BB. cbn [watch check m_rel m_busy m_dead m_last m_sw orb].
          assert (Q : prompt && (last + period <? u_now s) = false); [|now rewrite Q].
          destruct prompt; auto. cbn [andb]. apply Nat.ltb_ge. specialize (PR eq_refl R L). rewrite (LA R L) in PR. exact PR.
        - intro T. now apply (law_term D LD).
        - destruct (u_t s); auto. destruct TT as (T1 & T2). rewrite R, L in T1. discriminate.
        - intros _ R'. congruence.
        - intros _ L'. rewrite (SR R L), <- app_assoc. f_equal. destruct e as [v|x|]; [reflexivity|rewrite (law_term D LD) in L' by reflexivity; discriminate..].
        - exists rest. now rewrite (SR R L), CL, <- app_assoc.
        - intros L'. rewrite FB, OF; auto.
        - destruct PFB as (pf & PFB). rewrite OF in PFB. eauto.
        - left. rewrite app_nil_r, mrun_app. destruct DD as [DD|(_ & Z & _)]; [|congruence]. rewrite OF, app_nil_r in DD. now rewrite <- DD.
        - intro T. now apply (law_term D LD).
        - intro Z. congruence. }
      destruct e as [v|x|].
      + destruct (u_sw s) eqn:SWE.
        * inversion E; subst s' its ls; clear E. right. fields. split; auto. split.
          -- clear CALL. destruct single; auto. specialize (SI eq_refl). rewrite <- RS in SI. discriminate (SI eq_refl).
          -- destruct (SW eq_refl) as (t & IT). exists tr, v, t. split; auto. split; auto. unfold follows. now rewrite MO.
        * destruct (mdisp D (u_d s)) eqn:L; inversion E; subst s' its ls; clear E; [|apply CALL; auto].
          rewrite app_nil_r. left. exists last, dead. split; fields; rewrite ?L, ?SWE; auto; try congruence.
          -- destruct (u_t s); auto. destruct TT as (T1 & T2 & T3). intuition lia.
      + destruct (u_rel s || mdisp D (u_d s)) eqn:G; inversion E; subst s' its ls; clear E.
        * rewrite app_nil_r. left. exists last, dead. split; fields; auto; try congruence. all: try rewrite G; auto.
          intros R L; rewrite R, L in G; discriminate.
        * apply Bool.orb_false_iff in G as (G1 & G2). apply CALL; auto.
      + destruct (u_rel s || mdisp D (u_d s)) eqn:G; inversion E; subst s' its ls; clear E.
        * rewrite app_nil_r. left. exists last, dead. split; fields; auto; try congruence. all: try rewrite G; auto.
          intros R L; rewrite R, L in G; discriminate.
        * apply Bool.orb_false_iff in G as (G1 & G2). apply CALL; auto.
    - inversion E; subst s' its ls; clear E. destruct (BO eq_refl) as (B1 & B2). left. exists (u_now s), dead. fields.
      assert (BB : u_sw s = false) by (destruct (u_t s); try discriminate B1; intuition congruence).
      assert (SRC : of_src (tr ++ [CEnd (u_now s)]) = of_src tr) by (rewrite of_src_app; apply app_nil_r).
      assert (SFB : of_fb (tr ++ [CEnd (u_now s)]) = of_fb tr) by (rewrite of_fb_app; apply app_nil_r).
      split; fields; rewrite ?SRC, ?SFB; auto.
      + rewrite watch_app, MO, B2. cbn. rewrite Bool.orb_true_r. cbn. rewrite Bool.orb_false_r.
        destruct (u_busy s); auto. rewrite BU in BB; auto. discriminate.
      + intros P R L. destruct (is_term e) eqn:T; [rewrite TE in L; auto; discriminate|]. lia.
      + intros R L. destruct (is_term e) eqn:T; [rewrite TE in L; auto; discriminate|]. reflexivity.
      + destruct (u_t s); try discriminate B1; auto. destruct TT as (T1 & T2 & T3). destruct (is_term e); intuition lia.
      + intro Z. destruct (SW Z) as (t & IT). exists t. apply in_app_iff. auto.
      + destruct (is_term e); lia.
  Qed.

  Lemma in_old : forall (tr ls : list (tlab V)), (exists t, In (CSwitch t) tr) -> exists t, In (CSwitch t) (tr ++ ls).
  Proof. intros tr ls (t & H). exists t. apply in_app_iff. auto. Qed.

  Lemma Inv_timer : forall s tr s' its ls, Inv s tr -> step s UTimer = Some (s', its, ls) -> Inv s' (tr ++ ls).
  Proof.
    intros s tr s' its ls [(last & dead & I)|(M & _)] E; unfold ustep in E; [|rewrite M in E; discriminate].
    pose proof I as [MO DE PR LA LO BO TT BU SI SR PRE FB PFB NF DD TE SW MV TM]. rewrite MV in E. unfold utimer in E.
    left. destruct (u_t s) as [t| | | |] eqn:ET; fields.
    - exists last, dead. destruct TT as (T1 & T2 & T3). destruct (u_rel s || mdisp D (u_d s)) eqn:G; [|destruct (t <=? u_now s); [|discriminate]];
        inversion E; subst s' its ls; clear E; rewrite app_nil_r; split; fields; auto; try congruence.
      split; congruence.
    - destruct TT as (T2 & T3). destruct (u_lock s) eqn:LK; [discriminate|]. cbn [orb] in E. destruct (single && negb (idle (u_s s))) eqn:SG; [discriminate|].
      rewrite Bool.orb_false_r in LO. symmetry in LO.
      destruct (Nat.ltb_spec (u_now s) (u_time s)).
      + exists last, dead. inversion E; subst s' its ls; clear E; rewrite app_nil_r; split; fields; rewrite ?LO; auto; try congruence.
      + destruct (u_rel s || mdisp D (u_d s)) eqn:G.
        * exists last, dead. inversion E; subst s' its ls; clear E; rewrite app_nil_r; split; fields; rewrite ?LO; auto; try congruence.
          rewrite G. split; congruence.
        * apply Bool.orb_false_iff in G as (G1 & G2). exists last, dead. inversion E; subst s' its ls; clear E.
          assert (dead = false) by (destruct dead; auto; rewrite DE in G2; auto). subst dead.
          assert (BB : u_busy s = false) by (destruct (u_busy s); auto; rewrite BU in T3; auto; congruence).
          assert (SRC : of_src (tr ++ [CRel (u_now s)]) = of_src tr) by (rewrite of_src_app; apply app_nil_r).
          assert (SFB : of_fb (tr ++ [CRel (u_now s)]) = of_fb tr) by (rewrite of_fb_app; apply app_nil_r).
          split; fields; rewrite ?SRC, ?SFB, ?LO; auto; try congruence.
          -- rewrite watch_app, MO, LO, BB, G1, T3. cbn [watch check m_rel m_busy m_dead m_last m_sw orb andb negb].
             pose proof (LA G1 G2) as LA'. destruct (Nat.leb_spec (last + period) (u_now s)); [|lia]. cbn [andb].
             assert (Q : negb prompt || (u_now s =? last + period) = true).
             { destruct prompt; auto. cbn. apply Nat.eqb_eq. specialize (PR eq_refl G1 G2). lia. }
             now rewrite Q.
          -- intros Q _. rewrite Q in SG. cbn in SG. destruct (u_s s); auto; discriminate.
    - destruct TT as (T2 & T3). exists last, dead. inversion E; subst s' its ls; clear E.
      assert (IB : inback (u_s s) = false) by (destruct (inback (u_s s)); auto; destruct (BO eq_refl); discriminate).
      assert (BB : u_busy s = false) by (destruct (u_busy s); auto; rewrite BU in T3; auto; congruence).
      assert (SRC : of_src (tr ++ [CSwitch (u_now s)]) = of_src tr) by (rewrite of_src_app; apply app_nil_r).
      assert (SFB : of_fb (tr ++ [CSwitch (u_now s)]) = of_fb tr) by (rewrite of_fb_app; apply app_nil_r).
      split; fields; rewrite ?SRC, ?SFB; auto; try congruence.
      + rewrite watch_app, MO, IB, BB, T2, T3. reflexivity.
      + intros _. exists (u_now s). apply in_app_iff. right. now left.
    - destruct TT as (T2 & T3). exists last, dead. inversion E; subst s' its ls; clear E. rewrite app_nil_r.
      assert (IB : inback (u_s s) = false) by (destruct (inback (u_s s)); auto; destruct (BO eq_refl); discriminate).
      split; fields; rewrite ?IB; auto; try congruence; rewrite ?T2, ?T3; auto; try (rewrite MO, IB, T2, T3; reflexivity).
    - inversion E; subst s' its ls; clear E. rewrite app_nil_r. eauto.
  Qed.

  Lemma Inv_fb : forall s tr s' its ls, Inv s tr -> step s UFb = Some (s', its, ls) -> Inv s' (tr ++ ls).
  Proof.
    intros s tr s' its ls [(last & dead & I)|(M & _)] E; unfold ustep in E; [|rewrite M in E; discriminate].
    pose proof I as [MO DE PR LA LO BO TT BU SI SR PRE FB PFB NF DD TE SW MV TM]. rewrite MV in E. unfold ufb in E.
    left. assert (SR1 : u_sw s = true -> u_rel s = true).
    { intro Z. destruct (u_t s); intuition congruence. }
    assert (NB : u_sw s = true -> inback (u_s s) = false).
    { intro Z. destruct (inback (u_s s)); auto. destruct (BO eq_refl) as (_ & B). rewrite SR1 in B; auto. }
    destruct (u_busy s) eqn:UB.
    - exists last, dead. inversion E; subst s' its ls; clear E.
      assert (SRC : of_src (tr ++ [CEnd (u_now s)]) = of_src tr) by (rewrite of_src_app; apply app_nil_r).
      assert (SFB : of_fb (tr ++ [CEnd (u_now s)]) = of_fb tr) by (rewrite of_fb_app; apply app_nil_r).
      split; fields; rewrite ?SRC, ?SFB; auto; try congruence.
      + rewrite watch_app, MO. cbn. rewrite SR1, NB; auto.
      + intro. apply in_old. auto.
    - destruct (u_sw s) eqn:US; [|discriminate]. specialize (SR1 eq_refl). specialize (NB eq_refl).
      destruct (u_fb s) as [|e r] eqn:UF; [inversion E; subst s' its ls; rewrite app_nil_r; eauto|].
      destruct (mdisp D (u_d s)) eqn:L; inversion E; subst s' its ls; clear E.
      + exists last, dead. rewrite app_nil_r. split; fields; rewrite ?L; auto; try congruence. destruct (u_t s); intuition.
      + exists last, (is_term e).
        assert (dead = false) by (destruct dead; auto; symmetry; auto). subst dead.
        assert (SRC : of_src (tr ++ [CFb e (u_now s)]) = of_src tr) by (rewrite of_src_app; apply app_nil_r).
        assert (SFB : of_fb (tr ++ [CFb e (u_now s)]) = of_fb tr ++ [e]) by (rewrite of_fb_app; reflexivity).
        destruct (clip_cons e r) as (rest & CL).
        split; fields; rewrite ?SRC, ?SFB; auto; try congruence.
        * rewrite watch_app, MO, NB. reflexivity.
        * intro T. now apply (law_term D LD).
        * destruct (u_t s); auto. destruct TT as (T1 & T2). split; auto. rewrite SR1. reflexivity.
        * intros L'. rewrite FB, <- app_assoc; auto. f_equal. destruct e as [v|x|]; [reflexivity|rewrite (law_term D LD) in L' by reflexivity; discriminate..].
        * exists rest. rewrite FB, CL, <- app_assoc; auto.
        * left. rewrite app_assoc, mrun_app. destruct DD as [DD|(_ & Z & _)]; [|congruence]. now rewrite <- DD.
        * destruct (u_s s); auto. discriminate.
        * intro. apply in_old. auto.
  Qed.

  Lemma Inv_tick : forall s tr s' its ls, Inv s tr -> step s UTick = Some (s', its, ls) -> Inv s' (tr ++ ls).
  Proof.
    intros s tr s' its ls [(last & dead & I)|(M & _)] E; unfold ustep in E; [|rewrite M in E; discriminate].
    pose proof I as [MO DE PR LA LO BO TT BU SI SR PRE FB PFB NF DD TE SW MV TM]. rewrite MV in E.
    destruct (stopped D prompt s) eqn:ST; [discriminate|]. left. exists last, dead. inversion E; subst s' its ls; clear E. rewrite app_nil_r.
    unfold stopped in ST. split; fields; auto; try lia.
    intros P R L. rewrite P, R, L in ST. cbn in ST. apply Bool.orb_false_iff in ST as (ST & _). apply Nat.leb_gt in ST. lia.
  Qed.

  Lemma Inv_kill : forall s tr s' its ls, kills <> 0 -> Inv s tr -> step s UKill = Some (s', its, ls) -> Inv s' (tr ++ ls).
  Proof.
    intros s tr s' its ls K [(last & dead & I)|(M & _)] E; unfold ustep in E; [|rewrite M in E; discriminate].
    pose proof I as [MO DE PR LA LO BO TT BU SI SR PRE FB PFB NF DD TE SW MV TM]. rewrite MV in E.
    left. exists last, true. inversion E; subst s' its ls; clear E.
    assert (SRC : of_src (tr ++ [CKill]) = of_src tr) by (rewrite of_src_app; apply app_nil_r).
    assert (SFB : of_fb (tr ++ [CKill]) = of_fb tr) by (rewrite of_fb_app; apply app_nil_r).
    pose proof (law_kill D LD (u_d s)) as LK.
    split; fields; rewrite ?SRC, ?SFB, ?LK; auto; try congruence.
    - rewrite watch_app, MO. reflexivity.
    - destruct (u_t s); auto. destruct TT. split; auto. now rewrite Bool.orb_true_r.
    - right. split; auto. split; auto. destruct DD as [<-|(_ & A & <-)]; auto. now rewrite (law_kill_dead D LD).
    - destruct (u_s s); auto.
    - intro. apply in_old. auto.
  Qed.

  Lemma Inv_init : mdisp D d0 = false -> Inv (u_init D period src0 fb0 d0) [].
  Proof.
    intro DD. left. exists 0, false. split; cbn; auto; try lia; try discriminate; eauto.
  Qed.
  Lemma its_of : forall s i s' its ls, step s i = Some (s', its, ls) -> its = [] \/ its = [i] /\ (i = USrc \/ i = UTimer \/ i = UFb).
  Proof.
    intros s i s' its ls E. unfold ustep in E. destruct (u_moved s); [discriminate|]. destruct i.
    - assert (G : its = [] \/ its = [USrc]); [|tauto]. unfold usrc in E.
      destruct (u_s s); repeat (match type of E with context [match ?x with _ => _ end] => destruct x end; try discriminate); inversion E; auto.
    - assert (G : its = [] \/ its = [UTimer]); [|tauto]. unfold utimer in E.
      destruct (u_t s); repeat (match type of E with context [match ?x with _ => _ end] => destruct x end; try discriminate); inversion E; auto.
    - assert (G : its = [] \/ its = [UFb]); [|tauto]. unfold ufb in E.
      repeat (match type of E with context [match ?x with _ => _ end] => destruct x end; try discriminate); inversion E; auto.
    - left. destruct (stopped D prompt s); [discriminate|]. now inversion E.
    - left. now inversion E.
  Qed.
  Lemma tmo_main : forall ticks tr s ts, mdisp D d0 = false -> gexec step (u_init D period src0 fb0 d0, u_threads ticks kills) tr (s, ts) -> Inv s tr.
  Proof.
    intros ticks tr s ts DD X.
    apply (gexec_inv step (fun s l tr => Inv s tr /\ (In UKill l -> kills <> 0))) in X.
    - apply X.
    - intros s1 l l' tr1 P (H1 & H2). split; auto. intro I. apply H2. eapply Permutation.Permutation_in; [apply Permutation.Permutation_sym|]; eauto.
    - intros s1 it l tr1 s2 its ls (H1 & H2) E. split.
      + destruct it; [eapply Inv_src|eapply Inv_timer|eapply Inv_fb|eapply Inv_tick|eapply Inv_kill]; eauto. apply H2. now left.
      + intro I. apply H2. right. apply in_app_iff in I as [I|I]; auto.
        apply its_of in E as [->|(-> & [->|[->| ->]])]; [destruct I|destruct I as [I|[]]; discriminate..].
    - cbn [fst snd]. split; [now apply Inv_init|]. intro I. unfold u_threads in I. cbn [concat app] in I. destruct I as [I|[I|[I|I]]]; try discriminate.
      rewrite concat_app in I. apply in_app_iff in I as [I|I]; apply in_concat in I as (t & T & I).
      + apply repeat_spec in T. subst. destruct I as [I|[]]. discriminate.
      + destruct kills; [destruct T|discriminate].
  Qed.

  Definition over (s : st) (i : uitem) : Prop :=
    match i with USrc => u_moved s = true \/ u_src s = [] /\ u_s s = ANext | UTimer => u_t s = TOver | UFb => u_fb s = [] /\ u_busy s = false | _ => True end.
  Lemma over_step : forall s i s' its ls j, step s i = Some (s', its, ls) -> over s j -> over s' j.
  Proof.
    intros s i s' its ls j E O. unfold ustep in E. destruct (u_moved s) eqn:M; [discriminate|]. destruct i.
    - destruct j; unfold over in *; [destruct O as [O|(O1 & O2)]; [congruence|]; unfold usrc in E; rewrite O1, O2 in E; inversion E; subst; auto|..]; auto;
        unfold usrc in E; destruct (u_s s); repeat (match type of E with context [match ?x with _ => _ end] => destruct x end; try discriminate); inversion E; subst; auto.
    - destruct j; unfold over in *; auto;
        unfold utimer in E; destruct (u_t s) eqn:UT; repeat (match type of E with context [match ?x with _ => _ end] => destruct x end; try discriminate); inversion E; subst; auto; try discriminate.
    - destruct j; unfold over in *; auto; [..|destruct O as (O1 & O2)];
        unfold ufb in E; rewrite ?O1, ?O2 in E; repeat (match type of E with context [match ?x with _ => _ end] => destruct x end; try discriminate); inversion E; subst; auto.
    - destruct (stopped D prompt s); [discriminate|]. inversion E; subst. destruct j; auto. destruct O as [O|O]; [congruence|now right].
    - inversion E; subst. destruct j; auto.
  Qed.
  Lemma over_end : forall s i s' ls, step s i = Some (s', [], ls) -> over s' i.
  Proof.
    intros s i s' ls E. unfold ustep in E. destruct (u_moved s) eqn:M; [discriminate|]. destruct i; unfold over; auto.
    - unfold usrc in E. destruct (u_s s) eqn:ES; repeat (match type of E with context [match ?x with _ => _ end] => destruct x eqn:? end; try discriminate); inversion E; subst; auto.
    - unfold utimer in E. destruct (u_t s) eqn:ES; repeat (match type of E with context [match ?x with _ => _ end] => destruct x end; try discriminate); inversion E; subst; auto.
    - unfold ufb in E. repeat (match type of E with context [match ?x with _ => _ end] => destruct x eqn:? end; try discriminate); inversion E; subst; auto.
  Qed.
  Lemma has_inv : forall ticks tr s ts, gexec step (u_init D period src0 fb0 d0, u_threads ticks kills) tr (s, ts) ->
    forall i, In i [USrc; UTimer; UFb] -> In [i] ts \/ over s i.
  Proof.
    intros ticks tr s ts X i J.
    apply (gexec_tinv step (fun s ts _ => In [i] ts \/ over s i)) in X; [exact X| |].
    - intros s1 ts1 it rest ts2 tr1 s2 its ls H E. destruct H as [H|H]; [|right; eapply over_step; eauto].
      apply in_app_iff in H as [H|[H|H]]; [left; apply in_app_iff; auto| |left; apply in_app_iff; right; now right].
      inversion H; subst. destruct (its_of _ _ _ _ _ E) as [->|(-> & _)]; [right; eapply over_end; eauto|left; apply in_app_iff; right; now left].
    - left. cbn [snd]. unfold u_threads. destruct J as [<-|[<-|[<-|[]]]]; cbn; auto.
  Qed.

  (** Nothing can happen any more. *)
  Lemma tmo_quiet : forall ticks tr s ts m, mdisp D d0 = false ->
    gexec step (u_init D period src0 fb0 d0, u_threads ticks kills) tr (s, ts) ->
    (forall ls c', ~ gstep step (s, ts) ls c') -> watch m_init tr = Some m -> mdisp D (u_d s) = false ->
    if m_rel m then m_sw m = true /\ of_fb tr = clip fb0 else of_src tr = clip src0 /\ u_now s < m_last m + period.
  Proof.
    intros ticks tr s ts m DD0 X ST W L. pose proof (has_inv _ _ _ _ X) as HI.
    destruct (tmo_main _ _ _ _ DD0 X) as [(last & dead & I)|(_ & _ & tr' & v & t & -> & _)].
    2:{ rewrite watch_app in W. destruct (watch m_init tr'); discriminate. }
    pose proof I as [MO DE PR LA LO BO TT BU SI SR PRE FB PFB NF DD TE SW MV TM]. rewrite MO in W. inversion W; subst m; clear W. cbn [m_rel m_sw m_last].
    assert (NS : forall i, In i [USrc; UTimer; UFb] -> step s i = None \/ over s i).
    { intros i J. destruct (HI i J) as [H|H]; auto. left. destruct (step s i) as [[[s1 its] ls]|] eqn:E; auto. exfalso.
      apply in_split in H as (t1 & t2 & ->). eapply ST. econstructor. exact E. }
    pose proof (NS USrc (or_introl eq_refl)) as N1. pose proof (NS UTimer (or_intror (or_introl eq_refl))) as N2.
    pose proof (NS UFb (or_intror (or_intror (or_introl eq_refl)))) as N3. clear NS.
    unfold ustep in N1, N2, N3. rewrite MV in N1, N2, N3. cbn [over] in *. rewrite MV in N1.
    assert (NB : inback (u_s s) = false).
    { destruct (u_s s) eqn:ES; auto. exfalso. unfold usrc in N1. rewrite ES in N1. destruct N1 as [N1|[N1|(_ & N1)]]; discriminate. }
    assert (NH : holds (u_t s) = false).
    { destruct (u_t s) eqn:ET; auto; exfalso; unfold utimer in N2; rewrite ET in N2; destruct N2 as [N2|N2]; discriminate. }
    rewrite NB, NH in LO. cbn [orb] in LO.
    assert (NX : u_src s = [] /\ u_s s = ANext).
    { destruct N1 as [N1|[N1|N1]]; [|discriminate|exact N1]. exfalso. unfold usrc in N1. rewrite LO in N1.
      destruct (u_s s) as [|e|e]; [|destruct e as [v|x|]|discriminate].
      - destruct (u_src s); [discriminate|]. destruct (gone D s); discriminate.
      - destruct (u_sw s); [discriminate|]. rewrite L in N1. discriminate.
      - destruct (gone D s); discriminate.
      - destruct (gone D s); discriminate. }
    destruct NX as (NX1 & NX2). unfold gone in *. destruct (u_rel s) eqn:R.
    - assert (U : u_sw s = true) by (destruct (u_t s); try discriminate NH; intuition congruence). split; auto.
      rewrite (FB L). destruct N3 as [N3|(N3 & _)]; [|now rewrite N3, app_nil_r].
      unfold ufb in N3. rewrite U, L in N3. destruct (u_busy s); [discriminate|]. destruct (u_fb s); discriminate.
    - split; [rewrite (SR eq_refl L), NX1, NX2; cbn; now rewrite app_nil_r|].
      rewrite <- (LA eq_refl L). destruct N2 as [N2|N2].
      + unfold utimer in N2. destruct (u_t s) as [t| | | |]; try discriminate.
        * unfold gone in N2. rewrite R, L in N2. cbn in N2. destruct (Nat.leb_spec t (u_now s)); [discriminate|]. lia.
        * rewrite LO, NX2 in N2. cbn in N2. rewrite Bool.andb_false_r in N2. unfold gone in N2. rewrite R, L in N2. cbn in N2.
          match type of N2 with (if ?b then _ else _) = _ => destruct b; discriminate end.
      + rewrite N2 in TT. destruct TT as (T1 & _). rewrite L in T1. discriminate.
  Qed.
End Proofs.
